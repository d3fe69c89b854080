(** Small list utilities shared by all models (no modelled code in this file). *)
From Coq Require Import List Arith NArith ZArith Lia Bool.
Import ListNotations.

(** Functional update of position [i]; out-of-range positions leave the list unchanged
    (models must check the bound themselves whenever the C++ would). *)
Fixpoint list_set {A} (l : list A) (i : nat) (x : A) : list A :=
  match l, i with
  | [], _ => []
  | _ :: t, O => x :: t
  | h :: t, S i' => h :: list_set t i' x
  end.

Lemma list_set_length {A} (l : list A) i x : length (list_set l i x) = length l.
Proof. revert i; induction l as [|h t IH]; intros [|i]; simpl; auto. Qed.

Lemma nth_list_set_eq {A} (l : list A) i x d :
  i < length l -> nth i (list_set l i x) d = x.
Proof.
  revert i; induction l as [|h t IH]; intros [|i] H; simpl in *; try lia; auto.
  apply IH; lia.
Qed.

Lemma nth_list_set_neq {A} (l : list A) i j x d :
  i <> j -> nth j (list_set l i x) d = nth j l d.
Proof.
  revert i j; induction l as [|h t IH]; intros [|i] [|j] H; simpl in *; try lia; auto.
Qed.

Lemma nth_error_list_set_eq {A} (l : list A) i x :
  i < length l -> nth_error (list_set l i x) i = Some x.
Proof.
  revert i; induction l as [|h t IH]; intros [|i] H; simpl in *; try lia; auto.
  apply IH; lia.
Qed.

Lemma nth_error_list_set_neq {A} (l : list A) i j x :
  i <> j -> nth_error (list_set l i x) j = nth_error l j.
Proof.
  revert i j; induction l as [|h t IH]; intros [|i] [|j] H; simpl in *; try lia; auto.
Qed.

Lemma list_set_out {A} (l : list A) i x : length l <= i -> list_set l i x = l.
Proof.
  revert i; induction l as [|h t IH]; intros [|i] H; simpl in *; try lia; auto.
  f_equal; apply IH; lia.
Qed.

Lemma list_set_app_l {A} (l m : list A) i x :
  i < length l -> list_set (l ++ m) i x = list_set l i x ++ m.
Proof.
  revert i; induction l as [|h t IH]; intros [|i] H; simpl in *; try lia; auto.
  f_equal; apply IH; lia.
Qed.

Lemma list_set_list_set {A} (l : list A) i x y :
  list_set (list_set l i x) i y = list_set l i y.
Proof. revert i; induction l as [|h t IH]; intros [|i]; simpl; congruence. Qed.

Lemma list_set_nth_same {A} (l : list A) i d : list_set l i (nth i l d) = l.
Proof. revert i; induction l as [|h t IH]; intros [|i]; simpl; congruence. Qed.

Lemma nth_error_ext {A} (l m : list A) :
  (forall i, nth_error l i = nth_error m i) -> l = m.
Proof.
  revert m; induction l as [|h t IH]; intros [|h' t'] H; auto.
  - specialize (H 0); discriminate.
  - specialize (H 0); discriminate.
  - f_equal.
    + specialize (H 0); simpl in H; congruence.
    + apply IH; intros i; apply (H (S i)).
Qed.

Lemma nth_error_seq a n i : i < n -> nth_error (seq a n) i = Some (a + i).
Proof.
  revert a i; induction n as [|n IH]; intros a [|i] H; simpl; try lia.
  - f_equal; lia.
  - rewrite IH by lia; f_equal; lia.
Qed.
