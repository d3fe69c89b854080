(** Lemmas for C55: a call run alone is the sequential call; framing under locks. *)
From Coq Require Import List Arith NArith ZArith Bool Lia.
From Verif Require Import Base HandleMgrModel EntryListModel MatchUnitModel TableModel ProfileModel
  ProfileSpec LockModel LockSpec.
Import ListNotations.

Fixpoint run_acts (j : nat) (bs : list act) (w : world) (l : loc) : option (world * loc) :=
  match bs with
  | [] => Some (w, l)
  | a :: r => match act_run j a w l with
              | Some (w', l') => run_acts j r w' l' | None => None end
  end.

Lemma act_skip j a w l x : l_out l = Some x -> act_run j a w l = Some (w, l).
Proof. intros E. unfold act_run. rewrite E. auto. Qed.
Lemma run_skip j bs w l x : l_out l = Some x -> run_acts j bs w l = Some (w, l).
Proof. intros E. induction bs as [|a r IH]; cbn [run_acts]; auto. rewrite (act_skip _ _ _ _ _ E). auto. Qed.

Lemma list_set_same {A} (l : list A) : forall j t, nth_error l j = Some t -> list_set l j t = l.
Proof. induction l as [|a l IH]; intros [|j] t E; cbn in *; try discriminate; try congruence. rewrite IH; auto. Qed.
Lemma set_tab_same w j t : nth_error (w_tabs w) j = Some t -> set_tab w j (w_prof w) t = w.
Proof. intros E. unfold set_tab. rewrite list_set_same; auto. destruct w; auto. Qed.

Section Alone.
Variables (np : nat -> nat) (cs : list itcfg).

Definition finish (r : option (world * loc)) : option (world * pout) :=
  match r with
  | Some (w, l) => match l_out l with Some x => Some (w, x) | None => None end
  | None => None
  end.

Ltac go := unfold done, chk_mbr, chk_grp, chk_target, chk_exists, upd_prof, upd_prof_done, dec_x, upd_done, drop_default, set_tab;
  cbn [run_acts act_run l_out l0 fin with_x with_m with_l option_map l_x l_m l_hit l_l w_prof w_tabs
  finish p_mh p_gh p_ents p_mc p_gc p_groups p_nm p_ng it_unit it_def].
Ltac crack := repeat (match goal with
  | X : forall y, _ = Some y |- _ => rewrite X
  | E : ?x = _ |- context [match ?x with _ => _ end] => rewrite E
  | |- context [match ?x with _ => _ end] =>
      lazymatch x with
      | context [match _ with _ => _ end] => fail
      | _ => destruct x eqn:?
      end
  end; go; try reflexivity; try discriminate).

Lemma script_ok w o : length (w_tabs w) = length cs ->
  w_step np cs w o = finish (run_acts (tab_of o) (acts np cs o) w l0).
Proof.
  intros L.
  destruct w as [p ts]. cbn [w_tabs] in *.
  assert (T : forall j c, nth_error cs j = Some c -> exists u d, nth_error ts j = Some (mkIT u d) /\
    (forall y, nth_error (list_set ts j y) j = Some y) /\
    (forall y z, nth_error (list_set (list_set ts j y) j z) j = Some z) /\
    list_set ts j (mkIT u d) = ts).
  { intros j c E. assert (J : j < length cs) by (apply nth_error_Some; congruence).
    destruct (nth_error ts j) as [[u d]|] eqn:E2; [|apply nth_error_None in E2; lia].
    exists u, d. split; auto. split; [intros; apply nth_error_list_set_eq; lia|].
    split; [intros; apply nth_error_list_set_eq; rewrite list_set_length; lia|]. apply list_set_same; auto. }
  destruct o; cbn [w_step acts tab_of].
  - unfold on_prof, p_add_member, bad_data, c_add_member, vec_put, with_counts. go. crack.
  - unfold on_prof, p_del_member, c_del_member. go. crack.
  - unfold on_prof, p_mod_member, bad_data, c_mod_member. go. crack.
  - unfold on_prof, p_add_group, c_add_group, vec_put, with_counts. go. crack.
  - unfold on_prof, p_del_group, c_del_group, with_counts. go. crack.
  - unfold on_prof, p_join, p_group_upd, c_join, c_group, put_group, set_group, with_counts. go. crack.
  - unfold on_prof, p_leave, p_group_upd, c_leave, c_group, put_group, set_group, with_counts. go. crack.
  - unfold on_prof, p_get_member, p_read. go. crack.
  - unfold on_prof, p_get_group, p_read. go. crack.
  - unfold on_prof, p_get_group, p_read. go. crack.
  - unfold on_prof, p_get_members, p_read. go. crack.
  - unfold on_prof, p_get_groups, p_read. go. crack.
  - go. reflexivity.
  - go. reflexivity.
  - unfold c_reset, with_counts, p_reset. go. reflexivity.
  - unfold on_tab, on_cfg; cbn [w_tabs]; destruct (nth_error cs j) as [c|] eqn:Ec; [|reflexivity];
    destruct (T _ _ Ec) as (u & d & Et & X1 & X2 & X3); rewrite Et.
    unfold i_add, c_add, set_tab. cbn [w_prof w_tabs]. go. crack; rewrite ?list_set_list_set, ?X3; auto; repeat (rewrite ?X1, ?X2, ?list_set_list_set, ?X3; go; crack); rewrite ?list_set_list_set, ?X3; auto.
  - unfold on_tab, on_cfg; cbn [w_tabs]; destruct (nth_error cs j) as [c|] eqn:Ec; [|reflexivity];
    destruct (T _ _ Ec) as (u & d & Et & X1 & X2 & X3); rewrite Et.
    unfold i_del, c_del, c_get_value, set_tab. cbn [w_prof w_tabs]. go. crack; rewrite ?list_set_list_set, ?X3; auto; repeat (rewrite ?X1, ?X2, ?list_set_list_set, ?X3; go; crack); rewrite ?list_set_list_set, ?X3; auto.
  - unfold on_tab, on_cfg; cbn [w_tabs]; destruct (nth_error cs j) as [c|] eqn:Ec; [|reflexivity];
    destruct (T _ _ Ec) as (u & d & Et & X1 & X2 & X3); rewrite Et.
    unfold i_mod, c_mod, c_get_value, set_tab. cbn [w_prof w_tabs]. go. crack; rewrite ?list_set_list_set, ?X3; auto; repeat (rewrite ?X1, ?X2, ?list_set_list_set, ?X3; go; crack); rewrite ?list_set_list_set, ?X3; auto.
  - unfold on_tab, on_cfg; cbn [w_tabs]; destruct (nth_error cs j) as [c|] eqn:Ec; [|reflexivity];
    destruct (T _ _ Ec) as (u & d & Et & X1 & X2 & X3); rewrite Et.
    unfold i_set_default, c_set_default, set_tab. cbn [w_prof w_tabs]. go. crack; rewrite ?list_set_list_set, ?X3; auto; repeat (rewrite ?X1, ?X2, ?list_set_list_set, ?X3; go; crack); rewrite ?list_set_list_set, ?X3; auto.
  - unfold on_tab, on_cfg; cbn [w_tabs]; destruct (nth_error cs j) as [c|] eqn:Ec; [|reflexivity];
    destruct (T _ _ Ec) as (u & d & Et & X1 & X2 & X3); rewrite Et.
    unfold i_reset_default, c_reset_default, set_tab. cbn [w_prof w_tabs]. go. crack; rewrite ?list_set_list_set, ?X3; auto; repeat (rewrite ?X1, ?X2, ?list_set_list_set, ?X3; go; crack); rewrite ?list_set_list_set, ?X3; auto.
  - unfold on_tab, on_cfg; cbn [w_tabs]; destruct (nth_error cs j) as [c|] eqn:Ec; [|reflexivity];
    destruct (T _ _ Ec) as (u & d & Et & X1 & X2 & X3); rewrite Et.
    unfold i_get, c_get, set_tab. cbn [w_prof w_tabs]. go. crack; rewrite ?list_set_list_set, ?X3; auto; repeat (rewrite ?X1, ?X2, ?list_set_list_set, ?X3; go; crack); rewrite ?list_set_list_set, ?X3; auto.
  - unfold on_tab, on_cfg; cbn [w_tabs]; destruct (nth_error cs j) as [c|] eqn:Ec; [|reflexivity];
    destruct (T _ _ Ec) as (u & d & Et & X1 & X2 & X3); rewrite Et.
    unfold i_get_default, c_get_default, set_tab. cbn [w_prof w_tabs]. go. crack; rewrite ?list_set_list_set, ?X3; auto; repeat (rewrite ?X1, ?X2, ?list_set_list_set, ?X3; go; crack); rewrite ?list_set_list_set, ?X3; auto.
  - unfold on_tab, on_cfg; cbn [w_tabs]; destruct (nth_error cs j) as [c|] eqn:Ec; [|reflexivity];
    destruct (T _ _ Ec) as (u & d & Et & X1 & X2 & X3); rewrite Et.
    unfold i_apply, c_apply, p_lookup, set_tab. cbn [w_prof w_tabs]. go. crack; rewrite ?list_set_list_set, ?X3; auto; repeat (rewrite ?X1, ?X2, ?list_set_list_set, ?X3; go; crack); rewrite ?list_set_list_set, ?X3; auto.
  - unfold on_tab, on_cfg; cbn [w_tabs]; destruct (nth_error cs j) as [c|] eqn:Ec; [|reflexivity];
    destruct (T _ _ Ec) as (u & d & Et & X1 & X2 & X3); rewrite Et.
    unfold i_clear, c_clear, set_tab. cbn [w_prof w_tabs]. go. crack; rewrite ?list_set_list_set, ?X3; auto; repeat (rewrite ?X1, ?X2, ?list_set_list_set, ?X3; go; crack); rewrite ?list_set_list_set, ?X3; auto.
Qed.
End Alone.

(** ** Framing *)
Definition agree (m : mutex) (w v : world) : Prop :=
  match m with
  | MT j => nth_error (w_tabs w) j = nth_error (w_tabs v) j
  | MP => w_prof w = w_prof v
  end.
Lemma agree_refl m w : agree m w w.
Proof. destruct m; reflexivity. Qed.
Lemma agree_sym m w v : agree m w v -> agree m v w.
Proof. destruct m; cbn; auto. Qed.
Lemma agree_trans m w v u : agree m w v -> agree m v u -> agree m w u.
Proof. destruct m; cbn; congruence. Qed.

(** What a thread that holds [k] can rely on. *)
Definition wagree (k : lk) (w v : world) : Prop :=
  match k with
  | (MT j, false) => option_map it_def (nth_error (w_tabs w) j) = option_map it_def (nth_error (w_tabs v) j)
  | (m, _) => agree m w v
  end.
Lemma agree_wagree k w v : agree (fst k) w v -> wagree k w v.
Proof. destruct k as [[j|] [|]]; cbn; auto. intros ->. auto. Qed.

(** The locks a step needs: the first step of a body, and any later one. *)
Definition covers (first : bool) (j : nat) (ls : list lk) (a : act) : Prop :=
  match a with
  | AL _ => True
  | ARD _ => exists b, In (MT j, b) ls
  | ART _ | ALU _ => if first then exists b, In (MT j, b) ls else In (MT j, true) ls
  | AWD _ | AWT _ => In (MT j, true) ls
  | ARP _ => exists b, In (MP, b) ls
  | AWP _ => In (MP, true) ls
  end.

Lemma act_len j a w l w' l' : act_run j a w l = Some (w', l') -> length (w_tabs w') = length (w_tabs w).
Proof.
  unfold act_run. destruct (l_out l); [intros E; injection E as <- <-; auto|].
  destruct a; destruct (nth_error (w_tabs w) j) as [t|]; intros E; try discriminate;
    repeat match type of E with
    | option_map _ ?x = _ => destruct x; cbn in E
    | match ?x with _ => _ end = _ => destruct x as [[? ?]|]
    end; try discriminate; inversion E; subst; cbn; rewrite ?list_set_length; auto.
Qed.
Lemma run_len j bs : forall w l w' l', run_acts j bs w l = Some (w', l') -> length (w_tabs w') = length (w_tabs w).
Proof.
  induction bs as [|a r IH]; intros w l w' l' E; cbn in E; [injection E as <- <-; auto|].
  destruct (act_run j a w l) as [[w1 l1]|] eqn:E1; [|discriminate].
  rewrite (IH _ _ _ _ E). eapply act_len; eauto.
Qed.

(** A step changes nothing but what is locked exclusively; the first one may also update the
    statistics of a table locked for reading. *)
Lemma act_same j ls a w l w' l' : covers false j ls a -> act_run j a w l = Some (w', l') ->
  forall m, ~ In (m, true) ls -> agree m w w'.
Proof.
  intros C E m N. unfold act_run in E. destruct (l_out l); [injection E as <- <-; apply agree_refl|].
  destruct a; cbn [covers] in C; destruct (nth_error (w_tabs w) j) as [t|] eqn:Et; try discriminate;
    repeat match type of E with
    | option_map _ ?x = _ => destruct x; cbn in E
    | match ?x with _ => _ end = _ => destruct x as [[? ?]|]
    end; try discriminate; inversion E; subst; try apply agree_refl;
    destruct m as [i|]; cbn; try reflexivity; try (destruct (Nat.eq_dec j i) as [->|D]; [tauto|];
      rewrite nth_error_list_set_neq; auto); tauto.
Qed.
Lemma act_same1 j ls a w l w' l' : covers true j ls a -> act_run j a w l = Some (w', l') ->
  forall m, (forall b, ~ In (m, b) ls) -> agree m w w'.
Proof.
  intros C E m N. unfold act_run in E. destruct (l_out l); [injection E as <- <-; apply agree_refl|].
  destruct a; cbn [covers] in C; destruct (nth_error (w_tabs w) j) as [t|] eqn:Et; try discriminate;
    repeat match type of E with
    | option_map _ ?x = _ => destruct x; cbn in E
    | match ?x with _ => _ end = _ => destruct x as [[? ?]|]
    end; try discriminate; inversion E; subst; try apply agree_refl;
    destruct m as [i|]; cbn; try reflexivity; try (destruct (Nat.eq_dec j i) as [->|D];
      [firstorder|rewrite nth_error_list_set_neq; auto]); firstorder.
Qed.
(** A first step under shared locks keeps everything other readers rely on. *)
Lemma act_def j ls a w l w' l' : covers true j ls a -> act_run j a w l = Some (w', l') ->
  forall m, ~ In (m, true) ls -> wagree (m, false) w w'.
Proof.
  intros C E m N. unfold act_run in E. destruct (l_out l); [injection E as <- <-; apply agree_wagree, agree_refl|].
  destruct a; cbn [covers] in C; destruct (nth_error (w_tabs w) j) as [t|] eqn:Et; try discriminate;
    repeat match type of E with
    | option_map _ ?x = _ => destruct x; cbn in E
    | match ?x with _ => _ end = _ => destruct x as [[? ?]|]
    end; try discriminate; inversion E; subst; try (apply agree_wagree, agree_refl);
    destruct m as [i|]; cbn; try reflexivity; try (destruct (Nat.eq_dec j i) as [->|D];
      [first [exfalso; tauto | rewrite nth_error_list_set_eq; [rewrite Et; reflexivity|apply nth_error_Some; congruence]]
      |rewrite nth_error_list_set_neq; auto]); tauto.
Qed.
Lemma run_same j ls bs : forall w l w' l', Forall (covers false j ls) bs -> run_acts j bs w l = Some (w', l') ->
  forall m, ~ In (m, true) ls -> agree m w w'.
Proof.
  induction bs as [|a r IH]; intros w l w' l' F E m N; cbn in E; [injection E as <- <-; apply agree_refl|].
  destruct (act_run j a w l) as [[w1 l1]|] eqn:E1; [|discriminate]. inversion F; subst.
  eapply agree_trans; [eapply act_same; eauto|eauto].
Qed.

(** The outcome of a step depends on what is locked only. *)
Definition same_out (P : world -> world -> Prop) (r q : option (world * loc)) : Prop :=
  match r, q with
  | Some (w, l), Some (v, k) => l = k /\ P w v
  | None, None => True
  | _, _ => False
  end.

Lemma nth_opt_def (w v : world) j : option_map it_def (nth_error (w_tabs w) j) = option_map it_def (nth_error (w_tabs v) j) ->
  (exists t s, nth_error (w_tabs w) j = Some t /\ nth_error (w_tabs v) j = Some s /\ it_def t = it_def s) \/
  (nth_error (w_tabs w) j = None /\ nth_error (w_tabs v) j = None).
Proof.
  destruct (nth_error (w_tabs w) j) as [t|], (nth_error (w_tabs v) j) as [s|]; cbn; intros E; try discriminate.
  - left. exists t, s. injection E as E. auto.
  - auto.
Qed.

(** Both sides change table [j] (the profile) in the same way. *)
Lemma wagree_set_tab k w v j t : wagree k w v -> j < length (w_tabs w) -> j < length (w_tabs v) ->
  wagree k (set_tab w j (w_prof w) t) (set_tab v j (w_prof v) t).
Proof.
  intros A L1 L2. destruct k as [[i|] [|]]; cbn in *; auto;
    (destruct (Nat.eq_dec j i) as [->|D];
     [rewrite !nth_error_list_set_eq; auto|rewrite !nth_error_list_set_neq; auto]).
Qed.
Lemma wagree_prof k w v p : wagree k w v -> wagree k (mkW p (w_tabs w)) (mkW p (w_tabs v)).
Proof. destruct k as [[i|] [|]]; cbn; auto. Qed.

Lemma act_frame j ls a w v l : covers false j ls a -> (forall k, In k ls -> wagree k w v) ->
  same_out (fun w' v' => forall k, In k ls -> wagree k w' v') (act_run j a w l) (act_run j a v l).
Proof.
  intros C A. unfold act_run. destruct (l_out l) as [x|]; [cbn; auto|].
  assert (TD : (exists b, In (MT j, b) ls) -> option_map it_def (nth_error (w_tabs w) j) = option_map it_def (nth_error (w_tabs v) j)).
  { intros ([|] & I). specialize (A _ I). cbn in A. rewrite A. auto. apply (A _ I). }
  assert (TF : In (MT j, true) ls -> nth_error (w_tabs w) j = nth_error (w_tabs v) j) by (intros I; apply (A _ I)).
  assert (PF : (exists b, In (MP, b) ls) -> w_prof w = w_prof v) by (intros ([|] & I); apply (A _ I)).
  destruct a; cbn [covers] in C.
  - destruct (f l); cbn; auto.
  - destruct (nth_opt_def _ _ _ (TD C)) as [(t & s & -> & -> & D)|[-> ->]]; [|exact I].
    rewrite D. destruct (f l (it_def s)); cbn; auto.
  - rewrite (TF C). destruct (nth_error (w_tabs v) j) as [t|]; [|exact I]. destruct (f l (it_unit t)); cbn; auto.
  - pose proof (TF C) as E. rewrite E. destruct (nth_error (w_tabs v) j) as [t|] eqn:Ev; [|exact I].
    destruct (f l (it_unit t)) as [[u l']|]; cbn; auto. split; auto. intros k K. apply wagree_set_tab; auto;
      apply nth_error_Some; congruence.
  - pose proof (TF C) as E. rewrite E. destruct (nth_error (w_tabs v) j) as [t|] eqn:Ev; [|exact I].
    destruct (f l) as [[u l']|]; cbn; auto. split; auto. intros k K. apply wagree_set_tab; auto;
      apply nth_error_Some; congruence.
  - pose proof (TF C) as E. rewrite E. destruct (nth_error (w_tabs v) j) as [t|] eqn:Ev; [|exact I].
    destruct (f l (it_unit t)) as [[u l']|]; cbn; auto. split; auto. intros k K. apply wagree_set_tab; auto;
      apply nth_error_Some; congruence.
  - rewrite (PF C). destruct (f l (w_prof v)); cbn; auto.
  - rewrite (PF (ex_intro _ true C)). destruct (f l (w_prof v)) as [[p l']|]; cbn; auto. split; auto.
    intros k K. apply wagree_prof; auto.
Qed.

Lemma run_frame j ls bs : forall w v l, Forall (covers false j ls) bs -> (forall k, In k ls -> wagree k w v) ->
  same_out (fun w' v' => forall k, In k ls -> wagree k w' v') (run_acts j bs w l) (run_acts j bs v l).
Proof.
  induction bs as [|a r IH]; intros w v l F A; cbn [run_acts]; [cbn; auto|].
  inversion F; subst. pose proof (act_frame j ls a w v l H1 A) as Q.
  destruct (act_run j a w l) as [[w1 l1]|], (act_run j a v l) as [[v1 l2]|]; cbn in Q; try tauto.
  destruct Q as [<- Q]. apply IH; auto.
Qed.

(** With full agreement on what is locked, the first step leaves full agreement. *)
Lemma act_frame1 j ls a w v l : covers true j ls a -> (forall m b, In (m, b) ls -> agree m w v) ->
  same_out (fun w' v' => forall m b, In (m, b) ls -> agree m w' v') (act_run j a w l) (act_run j a v l).
Proof.
  intros C A. unfold act_run. destruct (l_out l) as [x|]; [cbn; auto|].
  assert (TF : (exists b, In (MT j, b) ls) -> nth_error (w_tabs w) j = nth_error (w_tabs v) j)
    by (intros (b & I); apply (A _ _ I)).
  assert (PF : (exists b, In (MP, b) ls) -> w_prof w = w_prof v) by (intros (b & I); apply (A _ _ I)).
  assert (ST : forall t, j < length (w_tabs w) -> j < length (w_tabs v) ->
    forall m b, In (m, b) ls -> agree m (set_tab w j (w_prof w) t) (set_tab v j (w_prof v) t)).
  { intros t L1 L2 m b I. specialize (A _ _ I). destruct m as [i|]; cbn in *; auto.
    destruct (Nat.eq_dec j i) as [->|D]; [rewrite !nth_error_list_set_eq; auto|rewrite !nth_error_list_set_neq; auto]. }
  destruct a; cbn [covers] in C.
  - destruct (f l); cbn; auto.
  - rewrite (TF C). destruct (nth_error (w_tabs v) j) as [t|]; [|exact I]. destruct (f l (it_def t)); cbn; auto.
  - rewrite (TF C). destruct (nth_error (w_tabs v) j) as [t|]; [|exact I]. destruct (f l (it_unit t)); cbn; auto.
  - pose proof (TF C) as E. rewrite E. destruct (nth_error (w_tabs v) j) as [t|] eqn:Ev; [|exact I].
    destruct (f l (it_unit t)) as [[u l']|]; cbn [same_out]; auto. split; auto. apply ST; apply nth_error_Some; congruence.
  - pose proof (TF (ex_intro _ true C)) as E. rewrite E. destruct (nth_error (w_tabs v) j) as [t|] eqn:Ev; [|exact I].
    destruct (f l) as [[u l']|]; cbn [same_out]; auto. split; auto. apply ST; apply nth_error_Some; congruence.
  - pose proof (TF (ex_intro _ true C)) as E. rewrite E. destruct (nth_error (w_tabs v) j) as [t|] eqn:Ev; [|exact I].
    destruct (f l (it_unit t)) as [[u l']|]; cbn [same_out]; auto. split; auto. apply ST; apply nth_error_Some; congruence.
  - rewrite (PF C). destruct (f l (w_prof v)); cbn; auto.
  - rewrite (PF (ex_intro _ true C)). destruct (f l (w_prof v)) as [[p l']|]; cbn; auto. split; auto.
    intros m b K. specialize (A _ _ K). destruct m; cbn in *; auto.
Qed.

(** ** The locks each body takes are the ones it needs *)
Section Cover.
Variables (np : nat -> nat) (cs : list itcfg).
Lemma all_covered o : exists a r, acts np cs o = a :: r /\ covers true (tab_of o) (locks np cs o) a /\
  Forall (covers false (tab_of o) (locks np cs o)) r.
Proof.
  destruct o; cbn [acts locks tab_of];
    unfold c_add_member, c_del_member, c_mod_member, c_add_group, c_del_group, c_join, c_leave, c_reset, p_read,
      c_group, c_add, c_del, c_mod, c_get_value, c_set_default, c_reset_default, c_get, c_get_default, c_apply, c_clear,
      on_cfg, const_default;
    try destruct (bad_data _ _ _); try (destruct (nth_error cs j) as [c|]; [|do 2 eexists; split; [reflexivity|split; [exact I|constructor]]]);
    try destruct (c_const_entry (ic_cfg c));
    do 2 eexists; (split; [reflexivity|]); (split; [|repeat (apply Forall_cons || apply Forall_nil)]);
    cbn [covers]; try exact I; try (eexists; cbn; tauto); cbn; tauto.
Qed.

Lemma locks_nodup o : NoDup (locks np cs o).
Proof.
  destruct o; cbn [locks]; try destruct (bad_data _ _ _); try destruct (const_default _ _);
    repeat constructor; cbn; intuition congruence.
Qed.
(** Tables before the profile, and no mutex twice. *)
Lemma locks_shape o : locks np cs o = [] \/ (exists b, locks np cs o = [(MP, b)]) \/
  (exists j b, locks np cs o = [(MT j, b)]) \/ (exists j b b', locks np cs o = [(MT j, b); (MP, b')]).
Proof.
  destruct o; cbn [locks]; try destruct (bad_data _ _ _); try destruct (const_default _ _); eauto 7.
Qed.
Lemma locks_mode o m b b' : In (m, b) (locks np cs o) -> In (m, b') (locks np cs o) -> b = b'.
Proof.
  destruct o; cbn [locks]; try destruct (bad_data _ _ _); try destruct (const_default _ _); cbn;
    intuition congruence.
Qed.
End Cover.
