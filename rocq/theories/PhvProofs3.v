(** The shift loops of stacks, for any element type; header stacks and stacks of unions. *)
From Coq Require Import List Arith ZArith Bool Lia.
From Verif Require Import Base PhvModel PhvSpec PhvProofs PhvProofs2.
Import ListNotations.

Section Loops.
  Context {A : Type}.
  Variables (sw : phv -> nat -> nat -> option phv) (mk : phv -> nat -> option phv) (e : list nat).
  Variables (P : phv -> Prop) (V : phv -> nat -> A) (FR : phv -> phv -> Prop) (Mk : A -> Prop).
  Hypothesis FRr : forall s, FR s s.
  Hypothesis FRt : forall a b c, FR a b -> FR b c -> FR a c.
  Hypothesis SW : forall s i j, P s -> i < length e -> j < length e -> i <> j ->
    exists s', swap_el sw e i j s = Some s' /\ P s' /\ FR s s' /\ V s' i = V s j /\ V s' j = V s i /\ forall k, k < length e -> k <> i -> k <> j -> V s' k = V s k.
  Hypothesis MK : forall s i, P s -> i < length e -> exists s', at_el e i (mk s) = Some s' /\ P s' /\ FR s s' /\ Mk (V s' i) /\ forall k, k < length e -> k <> i -> V s' k = V s k.

  Lemma loop_up num n : 0 < num -> forall i s, P s -> i + n + num <= length e ->
    exists s', run_up n i (fun i => swap_el sw e i (i + num)) s = Some s' /\ P s' /\ FR s s' /\
      (forall k, k < i -> V s' k = V s k) /\ (forall k, i <= k < i + n -> V s' k = V s (k + num)) /\ (forall k, i + n + num <= k < length e -> V s' k = V s k).
  Proof.
    intros NZ. induction n as [|n IH]; intros i s HP L; cbn [run_up].
    - exists s. repeat split; auto. intros k ?. lia.
    - destruct (SW s i (i + num) HP) as (s1 & -> & P1 & F1 & V1 & V2 & V3); try lia. cbn [bind].
      destruct (IH (S i) s1 P1) as (s2 & -> & P2 & F2 & W1 & W2 & W3); [lia|]. exists s2. split; auto. split; auto. split; [eauto|]. split; [|split].
      + intros k Hk. rewrite W1 by lia. apply V3; lia.
      + intros k Hk. destruct (Nat.eq_dec k i) as [->|N].
        * rewrite W1 by lia. auto.
        * rewrite W2 by lia. apply V3; lia.
      + intros k Hk. rewrite W3 by lia. apply V3; lia.
  Qed.
  Lemma loop_down num n : 0 < num -> forall s, P s -> num + n <= length e ->
    exists s', run_down n num (fun i => swap_el sw e i (i - num)) s = Some s' /\ P s' /\ FR s s' /\
      (forall k, num + n <= k < length e -> V s' k = V s k) /\ (forall k, num <= k < num + n -> V s' k = V s (k - num)).
  Proof.
    intros NZ. induction n as [|n IH]; intros s HP L; cbn [run_down].
    - exists s. repeat split; auto. intros k ?. lia.
    - destruct (SW s (num + n) (num + n - num) HP) as (s1 & -> & P1 & F1 & V1 & V2 & V3); try lia. cbn [bind].
      destruct (IH s1 P1) as (s2 & -> & P2 & F2 & W1 & W2); [lia|]. exists s2. split; auto. split; auto. split; [eauto|]. split.
      + intros k Hk. rewrite W1 by lia. apply V3; lia.
      + intros k Hk. destruct (Nat.eq_dec k (num + n)) as [->|N].
        * rewrite W1 by lia. rewrite V1. f_equal.
        * rewrite W2 by lia. apply V3; lia.
  Qed.
  Lemma loop_mark n : forall i s, P s -> i + n <= length e ->
    exists s', run_up n i (fun i s => at_el e i (mk s)) s = Some s' /\ P s' /\ FR s s' /\
      (forall k, i <= k < i + n -> Mk (V s' k)) /\ (forall k, k < length e -> k < i \/ i + n <= k -> V s' k = V s k).
  Proof.
    induction n as [|n IH]; intros i s HP L; cbn [run_up].
    - exists s. repeat split; auto. intros k ?. lia.
    - destruct (MK s i HP) as (s1 & -> & P1 & F1 & V1 & V2); try lia. cbn [bind].
      destruct (IH (S i) s1 P1) as (s2 & -> & P2 & F2 & W1 & W2); [lia|]. exists s2. split; auto. split; auto. split; [eauto|]. split.
      + intros k Hk. destruct (Nat.eq_dec k i) as [->|N]; [rewrite W2 by lia; auto|apply W1; lia].
      + intros k Hk Hor. rewrite W2 by lia. apply V2; lia.
  Qed.

  Lemma pop16_ok next num s : P s -> exists s', pop16 sw mk e next num s = Some (s', next - num) /\ P s' /\ FR s s' /\
    forall k, k < length e -> (k + num < length e -> V s' k = V s (k + num)) /\ (length e <= k + num -> 0 < num -> Mk (V s' k)).
  Proof.
    intros HP. unfold pop16. destruct (Nat.eqb_spec num 0) as [->|NZ].
    - exists s. rewrite Nat.sub_0_r. do 3 (split; auto). intros k Hk. split; [rewrite Nat.add_0_r; auto|lia].
    - destruct (Nat.lt_ge_cases num (length e)) as [LT|GE].
      + destruct (loop_up num (length e - num) ltac:(lia) 0 s HP) as (s1 & -> & P1 & F1 & _ & W2 & _); [lia|]. cbn [bind].
        destruct (loop_mark (length e - (length e - num)) (length e - num) s1 P1) as (s2 & -> & P2 & F2 & X1 & X2); [lia|]. cbn [bind].
        exists s2. replace (next - Nat.min next num) with (next - num) by lia. do 2 (split; auto). split; [eauto|]. intros k Hk. split.
        * intros. rewrite X2 by lia. apply W2. lia.
        * intros. apply X1. lia.
      + replace (length e - num) with 0 by lia. cbn [run_up bind]. destruct (loop_mark (length e - 0) 0 s HP) as (s2 & -> & P2 & F2 & X1 & X2); [lia|]. cbn [bind].
        exists s2. replace (next - Nat.min next num) with (next - num) by lia. do 2 (split; auto). split; [eauto|]. intros k Hk. split; [lia|]. intros. apply X1. lia.
  Qed.
  Lemma push16_ok next num s : P s -> e <> [] -> next <= length e -> exists s', push16 sw mk e next num s = Some (s', Nat.min (length e) (next + num)) /\ P s' /\ FR s s' /\
    forall k, k < length e -> (num <= k -> V s' k = V s (k - num)) /\ (k < num -> Mk (V s' k)).
  Proof.
    intros HP NE LN. unfold push16. destruct (Nat.eqb_spec num 0) as [->|NZ].
    - exists s. rewrite Nat.add_0_r, Nat.min_r by auto. do 3 (split; auto). intros k Hk. split; [rewrite Nat.sub_0_r; auto|lia].
    - destruct (Nat.eqb_spec (length e) 0) as [Z|NZ']; [destruct e; [congruence|discriminate]|].
      destruct (Nat.lt_ge_cases num (length e)) as [LT|GE].
      + destruct (loop_down num (length e - num) ltac:(lia) s HP) as (s1 & -> & P1 & F1 & _ & W2); [lia|]. cbn [bind].
        destruct (loop_mark (Nat.min (length e) num) 0 s1 P1) as (s2 & -> & P2 & F2 & X1 & X2); [lia|]. cbn [bind].
        exists s2. do 2 (split; auto). split; [eauto|]. intros k Hk. split.
        * intros. rewrite X2 by lia. apply W2. lia.
        * intros. apply X1. lia.
      + replace (length e - num) with 0 by lia. cbn [run_down bind]. destruct (loop_mark (Nat.min (length e) num) 0 s HP) as (s2 & -> & P2 & F2 & X1 & X2); [lia|]. cbn [bind].
        exists s2. do 2 (split; auto). split; [eauto|]. intros k Hk. split; [lia|]. intros. apply X1. lia.
  Qed.
  Lemma pop_legacy_ok next num s : P s -> next <= length e -> exists s', pop_legacy sw mk e next num s = Some (s', next - num) /\ P s' /\ FR s s' /\
    forall k, k < length e -> (k + num < next -> V s' k = V s (k + num)) /\ (k < next <= k + num -> Mk (V s' k)) /\ (next <= k -> V s' k = V s k).
  Proof.
    intros HP LN. unfold pop_legacy. destruct (Nat.eqb_spec num 0) as [->|NZ].
    - exists s. rewrite Nat.sub_0_r. do 3 (split; auto). intros k Hk. split; [rewrite Nat.add_0_r; auto|]. split; auto. lia.
    - destruct (Nat.lt_ge_cases num next) as [LT|GE].
      + rewrite Nat.min_r by lia. destruct (loop_up num (next - num) ltac:(lia) 0 s HP) as (s1 & -> & P1 & F1 & _ & W2 & W3); [lia|]. cbn [bind].
        destruct (loop_mark num (next - num) s1 P1) as (s2 & -> & P2 & F2 & X1 & X2); [lia|]. cbn [bind].
        exists s2. do 2 (split; auto). split; [eauto|]. intros k Hk. split; [|split].
        * intros. rewrite X2 by lia. apply W2. lia.
        * intros. apply X1. lia.
        * intros. rewrite X2 by lia. apply W3. lia.
      + rewrite Nat.min_l by lia. rewrite Nat.sub_diag. cbn [run_up bind]. destruct (loop_mark next 0 s HP) as (s2 & -> & P2 & F2 & X1 & X2); [lia|]. cbn [bind].
        exists s2. replace (next - num) with 0 by lia. do 2 (split; auto). split; [eauto|]. intros k Hk. split; [lia|]. split; intros; [apply X1; lia|apply X2; lia].
  Qed.
  Lemma push_legacy_ok next num s : P s -> e <> [] -> next <= length e -> exists s', push_legacy sw mk e next num s = Some (s', Nat.min (length e) (next + num)) /\ P s' /\ FR s s' /\
    forall k, k < length e -> (num <= k < next + num -> V s' k = V s (k - num)) /\ (k < num -> Mk (V s' k)) /\ (next + num <= k -> V s' k = V s k).
  Proof.
    intros HP NE LN. unfold push_legacy. assert (LE : length e <> 0) by (destruct e; [congruence|discriminate]). destruct (Nat.eqb_spec num 0) as [->|NZ].
    - exists s. rewrite Nat.add_0_r, Nat.min_r by auto. do 3 (split; auto). intros k Hk. split; [rewrite Nat.sub_0_r; auto|]. split; auto. lia.
    - destruct (Nat.eqb_spec (Nat.min (length e) (next + num)) 0) as [Z|NZ']; [lia|].
      destruct (Nat.lt_ge_cases num (length e)) as [LT|GE].
      + destruct (loop_down num (Nat.min (length e) (next + num) - num) ltac:(lia) s HP) as (s1 & -> & P1 & F1 & W1 & W2); [lia|]. cbn [bind].
        destruct (loop_mark (Nat.min (length e) num) 0 s1 P1) as (s2 & -> & P2 & F2 & X1 & X2); [lia|]. cbn [bind].
        exists s2. do 2 (split; auto). split; [eauto|]. intros k Hk. split; [|split].
        * intros. rewrite X2 by lia. apply W2. lia.
        * intros. apply X1. lia.
        * intros. rewrite X2 by lia. apply W1. lia.
      + replace (Nat.min (length e) (next + num) - num) with 0 by lia. cbn [run_down bind]. destruct (loop_mark (Nat.min (length e) num) 0 s HP) as (s2 & -> & P2 & F2 & X1 & X2); [lia|]. cbn [bind].
        exists s2. do 2 (split; auto). split; [eauto|]. intros k Hk. split; [lia|]. split; [intros; apply X1; lia|lia].
  Qed.
End Loops.

(** ** Header stacks *)
Lemma INV_set_nu ag d s h y : INV ag d s -> h < length (p_h s) -> ~ in_union d h -> (ag = true -> ~ meta d h -> d_vf y = d_valid y) ->
  (forall t, nth_error (ds_h d) h = Some t -> fields_ok t y) -> INV ag d (set_h s h y).
Proof.
  intros I L NU VF F. constructor.
  - cbn [set_h p_h]. rewrite list_set_length. apply I.
  - apply I.
  - apply I.
  - apply I.
  - intros u i k z v c M Hz U. change (p_u (set_h s h y)) with (p_u s) in U. destruct (Nat.eq_dec h k) as [->|N].
    + exfalso. apply NU. exists u, i. auto.
    + rewrite H_set_neq in Hz by auto. eapply i_un; eauto.
  - intros u m c M U. eapply i_ui; eauto.
  - intros k t z T Hz. destruct (Nat.eq_dec h k) as [->|N].
    + rewrite H_set_eq in Hz by auto. injection Hz as <-. auto.
    + rewrite H_set_neq in Hz by auto. eapply i_f; eauto.
  - intros; eapply i_ns; eauto.
  - intros; eapply i_nus; eauto.
  - intros A k z M Hz. destruct (Nat.eq_dec h k) as [->|N].
    + rewrite H_set_eq in Hz by auto. injection Hz as <-. auto.
    + rewrite H_set_neq in Hz by auto. eapply i_ag; eauto.
Qed.

(** Everything but the headers of [e] is untouched *)
Definition only (e : list nat) (s s' : phv) : Prop := frame s s' /\ p_u s' = p_u s /\ forall h, ~ In h e -> H s' h = H s h.
Lemma only_refl e s : only e s s.
Proof. repeat split. Qed.
Lemma only_trans e a b c : only e a b -> only e b c -> only e a c.
Proof. intros (A & B & C) (D & E & F). split; [eapply frame_trans; eauto|]. split; [congruence|]. intros h N. rewrite F, C; auto. Qed.
Definition VH (e : list nat) (s : phv) (k : nat) : option hdr := match nth_error e k with Some h => H s h | None => None end.
Definition is_invalid (x : option hdr) : Prop := exists y, x = Some y /\ d_valid y = false /\ d_vf y = false.
Definition is_validp (x : option hdr) : Prop := exists y, x = Some y /\ d_valid y = true /\ d_vf y = true.

Lemma p_u_same s s' : length (p_u s') = length (p_u s) -> (forall u v c, nth_error (p_u s) u = Some (v, c) -> nth_error (p_u s') u = Some (v, c)) -> p_u s' = p_u s.
Proof.
  intros L F. apply nth_error_ext. intros u. destruct (nth_error (p_u s) u) as [[v c]|] eqn:E; auto. apply nth_error_None. apply nth_error_None in E. lia.
Qed.
Lemma stack_range d k e h : wf d -> nth_error (ds_s d) k = Some e -> In h e -> h < length (ds_h d) /\ ~ in_union d h /\ ~ meta d h.
Proof. intros W E I. destruct (wf_s_el _ W _ _ _ _ E I I) as ((t & t' & T & _) & A & B). split; auto. eapply nth_error_lt; eauto. Qed.

Lemma stack_sw ag d k e : wf d -> nth_error (ds_s d) k = Some e -> forall s i j, INV ag d s -> i < length e -> j < length e -> i <> j ->
  exists s', swap_el swap_h e i j s = Some s' /\ INV ag d s' /\ only e s s' /\ VH e s' i = VH e s j /\ VH e s' j = VH e s i /\
    forall n, n < length e -> n <> i -> n <> j -> VH e s' n = VH e s n.
Proof.
  intros W E s i j I Li Lj N. unfold swap_el. destruct (nth_error_some e i Li) as (a & Ea). destruct (nth_error_some e j Lj) as (b & Eb). rewrite Ea, Eb. cbn [bind].
  pose proof (wf_s_nodup _ W _ _ E) as ND. assert (Ia : In a e) by (eapply nth_error_In; eauto). assert (Ib : In b e) by (eapply nth_error_In; eauto).
  assert (AB : a <> b) by (intros ->; apply N; apply (proj1 (NoDup_nth_error e) ND); [auto|congruence]).
  destruct (stack_range _ _ _ _ W E Ia) as (La & Ua & Ma). destruct (stack_range _ _ _ _ W E Ib) as (Lb & Ub & Mb).
  destruct (H_get _ _ _ a I La) as (x & Ex). destruct (H_get _ _ _ b I Lb) as (y & Ey).
  unfold swap_h. unfold H in Ex, Ey. rewrite Ex, Ey. cbn [bind]. fold (H s a) in Ex. fold (H s b) in Ey.
  destruct (wf_s_el _ W _ _ _ _ E Ia Ib) as ((ta & tb & Ta & Tb & TY) & _). pose proof (wf_ty _ W _ _ _ _ Ta Tb TY) as TF.
  pose proof (i_f _ _ _ I _ _ _ Ta Ex) as FX. pose proof (i_f _ _ _ I _ _ _ Tb Ey) as FY.
  assert (LA : a < length (p_h s)) by (rewrite (i_h _ _ _ I); auto). assert (LB : b < length (p_h (set_h s a y))) by (cbn; rewrite list_set_length, (i_h _ _ _ I); auto).
  assert (I1 : INV ag d (set_h s a y)).
  { apply INV_set_nu; auto.
    - intros A _. apply (i_ag _ _ _ I A b y Mb Ey).
    - intros t T. rewrite Ta in T. injection T as <-. unfold fields_ok in *. rewrite TF. auto. }
  eexists. split; [reflexivity|]. split.
  { apply INV_set_nu; auto.
    - intros A _. apply (i_ag _ _ _ I A a x Ma Ex).
    - intros t T. rewrite Tb in T. injection T as <-. unfold fields_ok in *. rewrite <- TF. auto. }
  split.
  { split; [repeat split; cbn; rewrite ?list_set_length; auto|]. split; auto. intros h Nh. rewrite !H_set_neq by congruence. auto. }
  unfold VH. rewrite Ea, Eb. split; [rewrite H_set_neq, H_set_eq by auto; auto|]. split; [rewrite H_set_eq by auto; auto|].
  intros n Ln Ni Nj. destruct (nth_error_some e n Ln) as (c & Ec). rewrite Ec.
  assert (c <> a) by (intros ->; apply Ni; apply (proj1 (NoDup_nth_error e) ND); [auto|congruence]).
  assert (c <> b) by (intros ->; apply Nj; apply (proj1 (NoDup_nth_error e) ND); [auto|congruence]).
  rewrite !H_set_neq by auto. auto.
Qed.
Lemma stack_mi ag d k e : wf d -> nth_error (ds_s d) k = Some e -> forall s i, INV ag d s -> i < length e ->
  exists s', at_el e i (mark_invalid d s) = Some s' /\ INV ag d s' /\ only e s s' /\ is_invalid (VH e s' i) /\ forall n, n < length e -> n <> i -> VH e s' n = VH e s n.
Proof.
  intros W E s i I Li. unfold at_el. destruct (nth_error_some e i Li) as (a & Ea). rewrite Ea. cbn [bind].
  pose proof (wf_s_nodup _ W _ _ E) as ND. assert (Ia : In a e) by (eapply nth_error_In; eauto).
  destruct (stack_range _ _ _ _ W E Ia) as (La & Ua & Ma). destruct (H_get _ _ _ a I La) as (x & Ex).
  destruct (mark_invalid_ok ag d s a x W I Ex) as (s' & -> & I' & FR & Ha & Hk & PU). exists s'. split; auto. split; auto. split.
  { split; auto. split; [|intros h Nh; apply Hk; congruence]. apply p_u_same; [apply FR|]. intros u v c U. rewrite (PU _ _ _ U), (not_in_union_um _ _ Ua). destruct (d_valid x); auto. }
  unfold VH. rewrite Ea. split; [exists (with_valid x false); auto|]. intros n Ln Ni. destruct (nth_error_some e n Ln) as (c & Ec). rewrite Ec. apply Hk.
  intros ->; apply Ni; apply (proj1 (NoDup_nth_error e) ND); [auto|congruence].
Qed.
Lemma after_valid_nu d h k y : um d h = None -> after_valid d h k y = y.
Proof. intros E. unfold after_valid. rewrite E. auto. Qed.
Lemma stack_mv ag d k e : wf d -> nth_error (ds_s d) k = Some e -> forall s i, INV ag d s -> i < length e ->
  exists s', at_el e i (mark_valid d s) = Some s' /\ INV ag d s' /\ only e s s' /\ is_validp (VH e s' i) /\ forall n, n < length e -> n <> i -> VH e s' n = VH e s n.
Proof.
  intros W E s i I Li. unfold at_el. destruct (nth_error_some e i Li) as (a & Ea). rewrite Ea. cbn [bind].
  pose proof (wf_s_nodup _ W _ _ E) as ND. assert (Ia : In a e) by (eapply nth_error_In; eauto).
  destruct (stack_range _ _ _ _ W E Ia) as (La & Ua & Ma). destruct (H_get _ _ _ a I La) as (x & Ex). pose proof (not_in_union_um _ _ Ua) as Un.
  destruct (mark_valid_ok ag d s a x W I Ex) as (s' & -> & I' & FR & Ha & Hk & PU). exists s'. split; auto. split; auto.
  assert (HK : forall h, h <> a -> H s' h = H s h).
  { intros h Nh. destruct (H s h) as [z|] eqn:Ez; [rewrite (Hk h z Nh Ez), after_valid_nu; auto|]. unfold H in *. apply nth_error_None. apply nth_error_None in Ez. destruct FR as (_ & _ & -> & _). auto. }
  split.
  { split; auto. split; [|intros h Nh; apply HK; congruence]. apply p_u_same; [apply FR|]. intros u v c U. rewrite (PU _ _ _ U), Un. auto. }
  unfold VH. rewrite Ea. split; [exists (with_valid x true); auto|]. intros n Ln Ni. destruct (nth_error_some e n Ln) as (c & Ec). rewrite Ec. apply HK.
  intros ->; apply Ni; apply (proj1 (NoDup_nth_error e) ND); [auto|congruence].
Qed.

(** Changing the next index *)
Lemma INV_set_s ag d s k e n : INV ag d s -> nth_error (ds_s d) k = Some e -> n <= length e -> INV ag d (set_s s k n).
Proof.
  intros I E L. constructor; try apply I.
  - cbn. rewrite list_set_length. apply I.
  - intros k' e' n' E' N'. cbn in N'. destruct (Nat.eq_dec k k') as [->|Nk].
    + rewrite nth_error_list_set_eq in N' by (rewrite (i_s _ _ _ I); eapply nth_error_lt; eauto). congruence.
    + rewrite nth_error_list_set_neq in N' by auto. eapply i_ns; eauto.
Qed.
Lemma INV_set_us ag d s k e n : INV ag d s -> nth_error (ds_us d) k = Some e -> n <= length e -> INV ag d (set_us s k n).
Proof.
  intros I E L. constructor; try apply I.
  - cbn. rewrite list_set_length. apply I.
  - intros k' e' n' E' N'. cbn in N'. destruct (Nat.eq_dec k k') as [->|Nk].
    + rewrite nth_error_list_set_eq in N' by (rewrite (i_us _ _ _ I); eapply nth_error_lt; eauto). congruence.
    + rewrite nth_error_list_set_neq in N' by auto. eapply i_nus; eauto.
Qed.

Theorem pop_ok ag (legacy : bool) d s k e next n : wf d -> INV ag d s -> nth_error (ds_s d) k = Some e -> nth_error (p_s s) k = Some next ->
  exists s1, pop_front legacy d s k n = Some (set_s s1 k (next - n)) /\ INV ag d (set_s s1 k (next - n)) /\ INV ag d s1 /\ only e s s1 /\
    forall i, i < length e ->
      if legacy then (i + n < next -> VH e s1 i = VH e s (i + n)) /\ (i < next <= i + n -> is_invalid (VH e s1 i)) /\ (next <= i -> VH e s1 i = VH e s i)
      else (i + n < length e -> VH e s1 i = VH e s (i + n)) /\ (length e <= i + n -> 0 < n -> is_invalid (VH e s1 i)).
Proof.
  intros W I E N. unfold pop_front. rewrite E, N. cbn [bind]. pose proof (i_ns _ _ _ I _ _ _ E N) as LN. destruct legacy.
  - destruct (pop_legacy_ok swap_h (mark_invalid d) e (INV ag d) (VH e) (only e) is_invalid (only_refl e) (only_trans e) (stack_sw ag d k e W E) (stack_mi ag d k e W E) next n s I LN) as (s1 & -> & I1 & O & F).
    cbn [bind fst snd]. exists s1. split; auto. split; [eapply INV_set_s; eauto; lia|]. auto.
  - destruct (pop16_ok swap_h (mark_invalid d) e (INV ag d) (VH e) (only e) is_invalid (only_refl e) (only_trans e) (stack_sw ag d k e W E) (stack_mi ag d k e W E) next n s I) as (s1 & -> & I1 & O & F).
    cbn [bind fst snd]. exists s1. split; auto. split; [eapply INV_set_s; eauto; lia|]. auto.
Qed.
Theorem push_ok ag (legacy : bool) d s k e next n : wf d -> INV ag d s -> nth_error (ds_s d) k = Some e -> e <> [] -> nth_error (p_s s) k = Some next ->
  let next' := Nat.min (length e) (next + n) in
  exists s1, push_front legacy d s k n = Some (set_s s1 k next') /\ INV ag d (set_s s1 k next') /\ INV ag d s1 /\ only e s s1 /\
    forall i, i < length e ->
      if legacy then (n <= i < next + n -> VH e s1 i = VH e s (i - n)) /\ (i < n -> is_validp (VH e s1 i)) /\ (next + n <= i -> VH e s1 i = VH e s i)
      else (n <= i -> VH e s1 i = VH e s (i - n)) /\ (i < n -> is_invalid (VH e s1 i)).
Proof.
  intros W I E NE N next'. unfold push_front. rewrite E, N. cbn [bind]. pose proof (i_ns _ _ _ I _ _ _ E N) as LN. destruct legacy.
  - destruct (push_legacy_ok swap_h (mark_valid d) e (INV ag d) (VH e) (only e) is_validp (only_refl e) (only_trans e) (stack_sw ag d k e W E) (stack_mv ag d k e W E) next n s I NE LN) as (s1 & -> & I1 & O & F).
    cbn [bind fst snd]. exists s1. split; auto. split; [eapply INV_set_s; eauto; unfold next'; lia|]. auto.
  - destruct (push16_ok swap_h (mark_invalid d) e (INV ag d) (VH e) (only e) is_invalid (only_refl e) (only_trans e) (stack_sw ag d k e W E) (stack_mi ag d k e W E) next n s I NE LN) as (s1 & -> & I1 & O & F).
    cbn [bind fst snd]. exists s1. split; auto. split; [eapply INV_set_s; eauto; unfold next'; lia|]. auto.
Qed.
