(** Proofs about multicast replication: the model refines the specification. *)
From Coq Require Import List Arith Bool Lia.
From Verif Require Import Base NMap HandleMgrModel HandleMgrSpec HandleMgrProofs PreModel PreSpec.
Import ListNotations.

Lemma nm_len_ext {V} (m : nmap V) l : nm_ok m -> NoDup l -> (forall k, In k l <-> nm_find k m <> None) -> length m = length l.
Proof.
  intros O N H. rewrite <- (map_length fst m). pose proof (sorted_lt_NoDup _ (nm_keys_sorted m O)) as K.
  apply Nat.le_antisymm; apply NoDup_incl_length; auto; intros k I.
  - apply H. apply nm_In_fst; auto.
  - apply nm_In_fst; auto. apply H. auto.
Qed.
Lemma nm_len_put_new {V} k v (m : nmap V) : nm_ok m -> nm_find k m = None -> length (nm_put k v m) = S (length m).
Proof.
  intros O E. rewrite (nm_len_ext (nm_put k v m) (k :: map fst m)).
  - cbn. rewrite map_length. auto.
  - apply nm_put_ok; auto.
  - constructor; [rewrite nm_In_fst by auto; congruence|apply sorted_lt_NoDup, nm_keys_sorted; auto].
  - intros k'. cbn. rewrite nm_In_fst, nm_find_put by auto. destruct (Nat.eqb_spec k k') as [->|]; intuition congruence.
Qed.
Lemma nm_len_put_old {V} k v w (m : nmap V) : nm_ok m -> nm_find k m = Some w -> length (nm_put k v m) = length m.
Proof.
  intros O E. rewrite (nm_len_ext (nm_put k v m) (map fst m)).
  - rewrite map_length. auto.
  - apply nm_put_ok; auto.
  - apply sorted_lt_NoDup, nm_keys_sorted; auto.
  - intros k'. rewrite nm_In_fst, nm_find_put by auto. destruct (Nat.eqb_spec k k') as [->|]; intuition congruence.
Qed.
Lemma nm_len_del {V} k w (m : nmap V) : nm_ok m -> nm_find k m = Some w -> length (nm_del k m) = length m - 1.
Proof.
  intros O E. assert (length m = S (length (nm_del k m))); [|lia].
  rewrite (nm_len_ext m (k :: map fst (nm_del k m))).
  - cbn. rewrite map_length. auto.
  - auto.
  - constructor; [rewrite nm_In_fst by (apply nm_del_ok; auto); rewrite nm_find_del, Nat.eqb_refl by auto; congruence|apply sorted_lt_NoDup, nm_keys_sorted, nm_del_ok; auto].
  - intros k'. cbn. rewrite nm_In_fst by (apply nm_del_ok; auto). rewrite nm_find_del by auto. destruct (Nat.eqb_spec k k') as [->|]; intuition congruence.
Qed.
Lemma nm_len_del_none {V} k (m : nmap V) : nm_ok m -> nm_find k m = None -> length (nm_del k m) = length m.
Proof.
  intros O E. rewrite <- (map_length fst m). apply nm_len_ext.
  - apply nm_del_ok; auto.
  - apply sorted_lt_NoDup, nm_keys_sorted; auto.
  - intros k'. rewrite nm_In_fst by auto. rewrite nm_find_del by auto. destruct (Nat.eqb_spec k k') as [->|]; intuition congruence.
Qed.

Definition grp (e : l1e) : option nat := if e_assoc e then Some (e_mg e) else None.
Definition mkn (e : l1e) (x : l2e) : node := mkNode (e_rid e) (x_ports x) (x_lags x) (grp e).

Record PI (s : pre) (sp : pspec) (a1 a2 : aspec) : Prop := {
  i_mg : nm_ok (mg s); i_l1 : nm_ok (l1 s); i_l2 : nm_ok (l2 s); i_lag : nm_ok (lag s);
  i_h1 : R (h1 s) a1; i_h2 : R (h2 s) a2;
  i_g : forall g, nm_find g (mg s) = groups sp g;
  i_ng : length (mg s) = ngroups sp;
  i_live1 : forall h, In h (live a1) <-> nm_find h (l1 s) <> None;
  i_live2 : forall h, In h (live a2) <-> nm_find h (l2 s) <> None;
  i_nn : length (live a1) = nnodes sp; i_nn2 : length (live a2) = nnodes sp;
  i_n : forall h, match nm_find h (l1 s) with
                  | None => nodes sp h = None
                  | Some e => exists x, nm_find (e_l2 e) (l2 s) = Some x /\ x_l1 x = h /\ nodes sp h = Some (mkn e x)
                  end;
  i_lg : forall i, match nm_find i (lag s) with
                   | None => lags sp i = None
                   | Some g => lags sp i = Some (m_ports g) /\ m_count g = count_set (m_ports g)
                   end;
  i_grp : forall g ls, groups sp g = Some ls -> NoDup ls /\ forall h, In h ls -> exists n, nodes sp h = Some n /\ n_group n = Some g }.

Lemma PI_empty : PI pre_empty ps_empty a_empty a_empty.
Proof.
  constructor; cbn; try (constructor; fail); try apply R_empty; auto; try (intros; split; [intros []|intros X; apply X; reflexivity]).
  discriminate.
Qed.

Lemma drop_remove h l : drop h l = remove Nat.eq_dec h l.
Proof.
  unfold drop. induction l as [|x l IH]; auto. cbn [filter remove]. destruct (Nat.eqb_spec x h), (Nat.eq_dec h x); cbn [negb]; congruence.
Qed.

Lemma valid_cases s sp a1 a2 h : PI s sp a1 a2 ->
  (hm_valid_handle (h1 s) h = Some false /\ nm_find h (l1 s) = None /\ nodes sp h = None) \/
  (hm_valid_handle (h1 s) h = Some true /\ exists e x, nm_find h (l1 s) = Some e /\ nm_find (e_l2 e) (l2 s) = Some x /\ x_l1 x = h /\ nodes sp h = Some (mkn e x)).
Proof.
  intros H. pose proof (i_n _ _ _ _ H h) as N. pose proof (i_live1 _ _ _ _ H h) as L. pose proof (R_live _ _ (i_h1 _ _ _ _ H) h) as V.
  rewrite (valid_ok _ _ h (i_h1 _ _ _ _ H)). destruct (wbit (words (handles (h1 s))) h).
  - right. split; auto. assert (In h (live a1)) by (apply V; auto). apply L in H0. destruct (nm_find h (l1 s)) as [e|]; [|congruence].
    destruct N as (x & A & B & C). eauto 10.
  - left. assert (~ In h (live a1)) by (intros X; apply V in X; discriminate). destruct (nm_find h (l1 s)) as [e|] eqn:E; auto. exfalso. apply H0, L. congruence.
Qed.

Lemma l2_inj s sp a1 a2 h h' e e' : PI s sp a1 a2 -> nm_find h (l1 s) = Some e -> nm_find h' (l1 s) = Some e' -> h <> h' -> e_l2 e <> e_l2 e'.
Proof.
  intros H A B N E. pose proof (i_n _ _ _ _ H h) as X. pose proof (i_n _ _ _ _ H h') as Y. rewrite A in X. rewrite B in Y.
  destruct X as (x & X1 & X2 & _), Y as (y & Y1 & Y2 & _). rewrite E in X1. congruence.
Qed.

Lemma port_loop_spec rid l : forall i, port_loop rid i l = map (fun p => (rid, p)) (filter (fun p => nth (p - i) l false) (seq i (length l))).
Proof.
  induction l as [|b l IH]; intros i; auto. cbn [port_loop length seq filter]. rewrite Nat.sub_diag. cbn [nth].
  rewrite IH. assert (E : filter (fun p => nth (p - S i) l false) (seq (S i) (length l)) = filter (fun p => nth (p - i) (b :: l) false) (seq (S i) (length l))).
  { apply filter_ext_in. intros p I. apply in_seq in I. replace (p - i) with (S (p - S i)) by lia. auto. }
  rewrite E. destruct b; auto.
Qed.
Lemma members_shift (l : list bool) i : filter (fun p => nth (p - i) l false) (seq i (length l)) = map (fun k => k + i) (members l).
Proof.
  unfold members. revert i. induction l as [|b l IH]; intros i; auto. cbn [length seq filter].
  assert (E : forall j, filter (fun p => nth (p - j) (b :: l) false) (seq (S j) (length l)) = filter (fun p => nth (p - S j) l false) (seq (S j) (length l))).
  { intros j. apply filter_ext_in. intros p I. apply in_seq in I. replace (p - j) with (S (p - S j)) by lia. auto. }
  assert (E0 : filter (fun p => nth p (b :: l) false) (seq 1 (length l)) = map S (filter (fun p => nth p l false) (seq 0 (length l)))).
  { transitivity (filter (fun p => nth (p - 0) (b :: l) false) (seq 1 (length l))).
    { apply filter_ext_in. intros p I. replace (p - 0) with p by lia. auto. }
    rewrite E, IH. apply map_ext. intros; lia. }
  rewrite E, Nat.sub_diag, E0, IH. cbn [nth]. destruct b; cbn [map]; rewrite map_map; [f_equal|]; apply map_ext; intros; lia.
Qed.
Lemma port_loop_ok rid l : port_loop rid 0 l = map (fun p => (rid, p)) (members l).
Proof. rewrite port_loop_spec. rewrite members_shift, map_map. apply map_ext. intros; f_equal; lia. Qed.

Lemma members_cons b l : members (b :: l) = (if b then [0] else []) ++ map S (members l).
Proof.
  pose proof (members_shift l 1) as H. unfold members at 1. cbn [length seq filter]. change (nth 0 (b :: l) false) with b.
  assert (E : filter (fun i => nth i (b :: l) false) (seq 1 (length l)) = map S (members l)).
  { transitivity (filter (fun p => nth (p - 1) l false) (seq 1 (length l))).
    - apply filter_ext_in. intros p I. apply in_seq in I. replace p with (S (p - 1)) at 1 by lia. auto.
    - rewrite H. apply map_ext. intros; lia. }
  rewrite E. destruct b; auto.
Qed.
Lemma count_members l : count_set l = length (members l).
Proof. induction l as [|b l IH]; auto. rewrite members_cons, app_length, map_length. cbn. rewrite IH. destruct b; auto. Qed.

Lemma member_loop_ok rid l : forall c1 c2 i, c2 < c1 <= c2 + length (members l) ->
  member_loop rid c1 c2 i l = [(rid, nth (c1 - c2 - 1) (members l) 0 + i)].
Proof.
  induction l as [|b l IH]; intros c1 c2 i H; [cbn in H; lia|]. cbn [member_loop]. rewrite members_cons in *. rewrite app_length, map_length in H.
  destruct b; cbn [length app] in *.
  - destruct (Nat.eqb_spec c1 (S c2)) as [->|N].
    + replace (S c2 - c2 - 1) with 0 by lia. auto.
    + rewrite IH by lia. replace (c1 - c2 - 1) with (S (c1 - S c2 - 1)) by lia. cbn [nth].
      rewrite nth_indep with (l := map S (members l)) (d' := S 0) by (rewrite map_length; lia). rewrite map_nth. do 2 f_equal. lia.
  - destruct (Nat.eqb_spec c1 c2) as [->|N]; [lia|]. rewrite IH by lia.
    rewrite nth_indep with (l := map S (members l)) (d' := S 0) by (rewrite map_length; lia). rewrite map_nth. do 2 f_equal. lia.
Qed.

Lemma flat_map_map {A B C} (f : A -> B) (g : B -> list C) l : flat_map g (map f l) = flat_map (fun x => g (f x)) l.
Proof. induction l; cbn; auto. rewrite IHl. auto. Qed.

Lemma lag_loop_ok hash s sp a1 a2 rid l : PI s sp a1 a2 -> forall i, lag_loop hash s rid i l =
  flat_map (fun j => match lags sp (j + i) with
                     | None => []
                     | Some ps => match members ps with [] => [] | m => [(rid, nth (hash mod length m) m 0)] end end) (members l).
Proof.
  intros H. induction l as [|b l IH]; intros i; auto. rewrite members_cons. cbn [lag_loop]. rewrite flat_map_app, flat_map_map, IH. f_equal.
  - destruct b; auto. cbn [flat_map]. rewrite app_nil_r. cbn [plus]. pose proof (i_lg _ _ _ _ H i) as L. destruct (nm_find i (lag s)) as [g|].
    + destruct L as [-> C]. rewrite C, count_members. destruct (members (m_ports g)) as [|m0 m] eqn:E; auto.
      cbn [length Nat.eqb]. rewrite <- E. assert (LE : length (members (m_ports g)) = S (length m)) by (rewrite E; auto).
      rewrite <- LE. assert (hash mod length (members (m_ports g)) < length (members (m_ports g))) by (apply Nat.mod_upper_bound; lia).
      rewrite member_loop_ok by lia. do 3 f_equal. rewrite Nat.add_0_r. f_equal. lia.
    + rewrite L. auto.
  - apply flat_map_ext. intros j. replace (S j + i) with (j + S i) by lia. auto.
Qed.

Lemma node_loop_ok hash s sp a1 a2 lagged hs : PI s sp a1 a2 -> (forall h, In h hs -> nodes sp h <> None) ->
  node_loop hash s lagged hs = Some (flat_map (fun h => match nodes sp h with
      | None => []
      | Some n => port_copies n ++ (if lagged then lag_copies hash (lags sp) n else []) end) hs).
Proof.
  intros H. induction hs as [|h hs IH]; intros K; auto. cbn [node_loop flat_map]. pose proof (i_n _ _ _ _ H h) as N.
  destruct (nm_find h (l1 s)) as [e|].
  - destruct N as (x & A & B & C). rewrite A, IH by (intros; apply K; right; auto). rewrite C. f_equal. rewrite <- app_assoc. f_equal; [apply port_loop_ok|]. f_equal.
    destruct lagged; auto. rewrite (lag_loop_ok _ _ _ _ _ _ _ H). unfold lag_copies. cbn [n_lags mkn n_rid].
    apply flat_map_ext. intros j. rewrite Nat.add_0_r. auto.
  - exfalso. apply (K h); auto. left; auto.
Qed.

Lemma put_same {A} (f : nat -> option A) k v : put f k v k = v.
Proof. unfold put. rewrite Nat.eqb_refl. auto. Qed.
Lemma put_other {A} (f : nat -> option A) k v x : x <> k -> put f k v x = f x.
Proof. unfold put. destruct (Nat.eqb_spec x k); congruence. Qed.

Section Step.
Variables (mg_max l1_max l2_max lag_max hash : nat).
Notation step := (p_step mg_max l1_max l2_max lag_max hash).
Notation spec := (pspec_step mg_max l1_max l2_max lag_max hash).

Lemma nodup_snoc {A} (l : list A) a : NoDup l -> ~ In a l -> NoDup (l ++ [a]).
Proof.
  induction 1 as [|x l N D IH]; intros H; cbn; [repeat constructor; auto|]. constructor.
  - intros I. apply in_app_or in I as [I|[->|[]]]; auto. apply H. left; auto.
  - apply IH. intros I. apply H. right; auto.
Qed.

Lemma lens s sp a1 a2 : PI s sp a1 a2 -> length (l1 s) = nnodes sp /\ length (l2 s) = nnodes sp.
Proof.
  intros H. rewrite <- (i_nn _ _ _ _ H) at 1. rewrite <- (i_nn2 _ _ _ _ H). split; apply nm_len_ext.
  - apply (i_l1 _ _ _ _ H).
  - apply (R_nodup _ _ (i_h1 _ _ _ _ H)).
  - apply (i_live1 _ _ _ _ H).
  - apply (i_l2 _ _ _ _ H).
  - apply (R_nodup _ _ (i_h2 _ _ _ _ H)).
  - apply (i_live2 _ _ _ _ H).
Qed.

Lemma step_ok s sp a1 a2 o : PI s sp a1 a2 -> exists s' x sp' a1' a2', step s o = Some (s', x) /\ spec sp o x sp' /\ PI s' sp' a1' a2'.
Proof.
  intros H. pose proof (lens _ _ _ _ H) as [LN1 LN2]. pose proof H as [O1 O2 O3 O4 H1 H2 G NG L1 L2 N1 N2 NN LG GR].
  destruct o as [g|g|rid ports lgs|g h|g h|h|h ports lgs|i ports| |lagged g]; cbn [p_step].
  - (* group create *) unfold mgrp_create. rewrite NG. destruct (Nat.leb_spec mg_max (ngroups sp)).
    { exists s, (PErr TABLE_FULL), sp, a1, a2. split; auto. split; [constructor; auto|auto]. }
    pose proof (G g) as Gg. destruct (nm_find g (mg s)) as [l|] eqn:E.
    { exists s, POk, sp, a1, a2. split; auto. split; [eapply ps_gagain; eauto|auto]. }
    eexists _, _, _, a1, a2. split; [reflexivity|]. split; [apply ps_gnew; auto|].
    constructor; cbn [mg l1 l2 lag h1 h2 groups ngroups nodes nnodes lags with_groups]; auto.
    + apply nm_put_ok; auto.
    + intros g'. rewrite nm_find_put by auto. unfold put. rewrite (Nat.eqb_sym g' g). destruct (g =? g'); auto.
    + rewrite nm_len_put_new by auto. auto.
    + intros g' ls. unfold put. destruct (g' =? g); [intros X; injection X as <-; split; [constructor|intros ? []]|apply GR].
  - (* group destroy *) unfold mgrp_destroy. pose proof (G g) as Gg. destruct (nm_find g (mg s)) as [l|] eqn:E.
    + eexists _, _, _, a1, a2. split; [reflexivity|]. split; [eapply ps_gdel; eauto|].
      constructor; cbn [mg l1 l2 lag h1 h2 groups ngroups nodes nnodes lags with_groups]; auto.
      * apply nm_del_ok; auto.
      * intros g'. rewrite nm_find_del by auto. unfold put. rewrite (Nat.eqb_sym g' g). destruct (g =? g'); auto.
      * rewrite (nm_len_del _ _ _ O1 E). auto.
      * intros g' ls. unfold put. destruct (g' =? g); [discriminate|apply GR].
    + eexists _, _, _, a1, a2. split; [reflexivity|]. split; [eapply ps_gdel0; auto|].
      constructor; cbn [mg l1 l2 lag h1 h2 groups ngroups nodes nnodes lags with_groups]; auto.
      * apply nm_del_ok; auto.
      * intros g'. rewrite nm_find_del by auto. destruct (Nat.eqb_spec g g') as [<-|]; auto.
      * rewrite nm_len_del_none by auto. auto.
  - (* node create *) unfold node_create. rewrite LN1, LN2. destruct (Nat.leb_spec l1_max (nnodes sp)).
    { exists s, (PErr TABLE_FULL), sp, a1, a2. split; auto. split; [constructor; auto|auto]. }
    destruct (Nat.leb_spec l2_max (nnodes sp)).
    { exists s, (PErr TABLE_FULL), sp, a1, a2. split; auto. split; [constructor; auto|auto]. }
    destruct (get_ok _ _ H1) as (m1 & k1 & -> & A1 & B1 & C1). destruct (get_ok _ _ H2) as (m2 & k2 & -> & A2 & B2 & C2).
    assert (E1 : nm_find k1 (l1 s) = None) by (destruct (nm_find k1 (l1 s)) eqn:X; auto; exfalso; apply A1, L1; congruence).
    assert (E2 : nm_find k2 (l2 s) = None) by (destruct (nm_find k2 (l2 s)) eqn:X; auto; exfalso; apply A2, L2; congruence).
    assert (S1 : nodes sp k1 = None) by (pose proof (NN k1) as X; rewrite E1 in X; auto).
    eexists _, _, _, _, _. split; [reflexivity|]. split.
    { apply ps_nnew; auto. intros k Hk. specialize (B1 k Hk). apply L1 in B1. pose proof (NN k) as X. destruct (nm_find k (l1 s)); [|congruence].
      destruct X as (x & _ & _ & X). congruence. }
    constructor; cbn [mg l1 l2 lag h1 h2 groups ngroups nodes nnodes lags with_nodes]; eauto using nm_put_ok.
    + intros h. cbn [live]. rewrite nm_find_put by auto. cbn [In]. rewrite L1. destruct (Nat.eqb_spec k1 h) as [->|]; intuition congruence.
    + intros h. cbn [live]. rewrite nm_find_put by auto. cbn [In]. rewrite L2. destruct (Nat.eqb_spec k2 h) as [->|]; intuition congruence.
    + cbn. auto.
    + cbn. auto.
    + intros h. rewrite nm_find_put by auto. unfold put. rewrite (Nat.eqb_sym h k1). destruct (Nat.eqb_spec k1 h) as [->|].
      * exists (mkL2 h ports lgs). cbn [e_l2]. rewrite nm_find_put, Nat.eqb_refl by auto. auto.
      * pose proof (NN h) as X. destruct (nm_find h (l1 s)) as [e|]; auto. destruct X as (x & X1 & X2 & X3). exists x. split; auto.
        rewrite nm_find_put by auto. destruct (Nat.eqb_spec k2 (e_l2 e)) as [E|]; auto. congruence.
    + intros g ls Hg. destruct (GR g ls Hg) as [X Y]. split; auto. intros h I. destruct (Y h I) as (n & Z1 & Z2). exists n. split; auto.
      rewrite put_other by congruence. auto.
  - (* associate *) unfold node_associate. destruct (valid_cases _ _ _ _ h H) as [(-> & A & B)|(-> & e & x & A & B & C & D)].
    { exists s, (PErr INVALID_L1_HANDLE), sp, a1, a2. split; auto. split; [constructor; auto|auto]. }
    pose proof (G g) as Gg. destruct (nm_find g (mg s)) as [ls|] eqn:E.
    2:{ exists s, (PErr INVALID_MGRP_HANDLE), sp, a1, a2. split; auto. split; [eapply ps_agroup; eauto|auto]. }
    rewrite A. destruct (e_assoc e) eqn:EA.
    { exists s, (PErr ERROR), sp, a1, a2. split; auto. split; [|auto]. eapply ps_aerr; eauto. unfold mkn, grp; cbn. rewrite EA. reflexivity. }
    assert (EG : n_group (mkn e x) = None) by (unfold mkn, grp; cbn; rewrite EA; auto).
    eexists _, _, _, a1, a2. split; [reflexivity|]. split; [eapply ps_assoc; eauto|].
    constructor; cbn [mg l1 l2 lag h1 h2 groups ngroups nodes nnodes lags with_nodes with_groups]; eauto using nm_put_ok.
    + intros g'. rewrite nm_find_put by auto. unfold put. rewrite (Nat.eqb_sym g' g). destruct (g =? g'); auto.
    + rewrite (nm_len_put_old _ _ _ _ O1 E). auto.
    + intros h'. rewrite nm_find_put by auto. rewrite L1. destruct (Nat.eqb_spec h h') as [->|]; intuition congruence.
    + intros h'. rewrite nm_find_put by auto. unfold put. rewrite (Nat.eqb_sym h' h). destruct (Nat.eqb_spec h h') as [<-|].
      * exists x. cbn [e_l2]. auto.
      * apply NN.
    + intros g' ls'. unfold put at 1. destruct (Nat.eqb_spec g' g) as [->|Ng]; intros X.
      * injection X as <-. destruct (GR g ls ltac:(congruence)) as [Y Z]. split.
        -- apply nodup_snoc; auto. intros I. destruct (Z h I) as (n & U & V). rewrite D in U. injection U as <-. rewrite EG in V. discriminate.
        -- intros h' I. unfold put. destruct (Nat.eqb_spec h' h) as [->|Nh].
           ++ eexists. split; [reflexivity|]. auto.
           ++ apply in_app_or in I as [I|[->|[]]]; [apply Z; auto|congruence].
      * destruct (GR g' ls' X) as [Y Z]. split; auto. intros h' I. unfold put. destruct (Nat.eqb_spec h' h) as [->|Nh]; [|apply Z; auto].
        exfalso. destruct (Z h I) as (n & U & V). rewrite D in U. injection U as <-. rewrite EG in V. discriminate.
  - (* dissociate *) unfold node_dissociate. destruct (valid_cases _ _ _ _ h H) as [(-> & A & B)|(-> & e & x & A & B & C & D)].
    { exists s, (PErr INVALID_L1_HANDLE), sp, a1, a2. split; auto. split; [constructor; auto|auto]. }
    pose proof (G g) as Gg. destruct (nm_find g (mg s)) as [ls|] eqn:E.
    2:{ exists s, (PErr INVALID_MGRP_HANDLE), sp, a1, a2. split; auto. split; [eapply ps_dgroup; eauto|auto]. }
    rewrite A. destruct (negb (e_assoc e) || negb (e_mg e =? g)) eqn:EA.
    { exists s, (PErr ERROR), sp, a1, a2. split; auto. split; [|auto]. eapply ps_derr; eauto. unfold mkn, grp; cbn.
      destruct (e_assoc e); [|discriminate]. cbn in EA. destruct (Nat.eqb_spec (e_mg e) g); [discriminate|congruence]. }
    apply orb_false_iff in EA as [EA EB]. apply negb_false_iff in EA, EB. apply Nat.eqb_eq in EB.
    assert (EG : n_group (mkn e x) = Some g) by (unfold mkn, grp; cbn; rewrite EA; congruence).
    rewrite drop_remove. eexists _, _, _, a1, a2. split; [reflexivity|]. split; [eapply ps_dissoc; eauto|].
    constructor; cbn [mg l1 l2 lag h1 h2 groups ngroups nodes nnodes lags with_nodes with_groups]; eauto using nm_put_ok.
    + intros g'. rewrite nm_find_put by auto. unfold put. rewrite (Nat.eqb_sym g' g). destruct (g =? g'); auto.
    + rewrite (nm_len_put_old _ _ _ _ O1 E). auto.
    + intros h'. rewrite nm_find_put by auto. rewrite L1. destruct (Nat.eqb_spec h h') as [->|]; intuition congruence.
    + intros h'. rewrite nm_find_put by auto. unfold put. rewrite (Nat.eqb_sym h' h). destruct (Nat.eqb_spec h h') as [<-|].
      * exists x. cbn [e_l2]. auto.
      * apply NN.
    + intros g' ls'. unfold put at 1. destruct (Nat.eqb_spec g' g) as [->|Ng]; intros X.
      * injection X as <-. destruct (GR g ls ltac:(congruence)) as [Y Z]. split; [apply remove_h_nodup; auto|].
        intros h' I. apply in_remove in I as [I Nh]. rewrite put_other by auto. apply Z; auto.
      * destruct (GR g' ls' X) as [Y Z]. split; auto. intros h' I. unfold put. destruct (Nat.eqb_spec h' h) as [->|Nh]; [|apply Z; auto].
        exfalso. destruct (Z h I) as (n & U & V). rewrite D in U. injection U as <-. rewrite EG in V. congruence.
  - (* destroy *) unfold node_destroy. destruct (valid_cases _ _ _ _ h H) as [(-> & A & B)|(-> & e & x & A & B & C & D)].
    { exists s, (PErr INVALID_L1_HANDLE), sp, a1, a2. split; auto. split; [constructor; auto|auto]. }
    rewrite A.
    assert (I1 : In h (live a1)) by (apply L1; congruence). assert (I2 : In (e_l2 e) (live a2)) by (apply L2; congruence).
    destruct (rel_ok _ _ h H1) as [[_ (m1 & RE1 & HR1)]|[X _]]; [|tauto].
    destruct (rel_ok _ _ (e_l2 e) H2) as [[_ (m2 & RE2 & HR2)]|[X _]]; [|tauto].
    rewrite RE1, RE2.
    assert (NN' : forall h', match nm_find h' (nm_del h (l1 s)) with
      | None => put (nodes sp) h None h' = None
      | Some e0 => exists x, nm_find (e_l2 e0) (nm_del (e_l2 e) (l2 s)) = Some x /\ x_l1 x = h' /\ put (nodes sp) h None h' = Some (mkn e0 x) end).
    { intros h'. rewrite nm_find_del by auto. unfold put. rewrite (Nat.eqb_sym h' h). destruct (Nat.eqb_spec h h') as [<-|Nh]; auto.
      pose proof (NN h') as X. destruct (nm_find h' (l1 s)) as [e0|] eqn:E0; auto. destruct X as (x0 & X1 & X2 & X3). exists x0. split; auto.
      rewrite nm_find_del by auto. destruct (Nat.eqb_spec (e_l2 e) (e_l2 e0)) as [EE|]; auto. exfalso. eapply (l2_inj _ _ _ _ h h'); eauto. }
    assert (LL1 : forall h', In h' (remove_h h (live a1)) <-> nm_find h' (nm_del h (l1 s)) <> None).
    { intros h'. rewrite nm_find_del by auto. destruct (Nat.eqb_spec h h') as [<-|Nh].
      - split; [intros I; apply in_remove in I; tauto|congruence].
      - rewrite <- L1. split; [intros I; apply in_remove in I; tauto|intros I; apply in_in_remove; auto]. }
    assert (LL2 : forall h', In h' (remove_h (e_l2 e) (live a2)) <-> nm_find h' (nm_del (e_l2 e) (l2 s)) <> None).
    { intros h'. rewrite nm_find_del by auto. destruct (Nat.eqb_spec (e_l2 e) h') as [<-|Nh].
      - split; [intros I; apply in_remove in I; tauto|congruence].
      - rewrite <- L2. split; [intros I; apply in_remove in I; tauto|intros I; apply in_in_remove; auto]. }
    pose proof (remove_h_length h _ (R_nodup _ _ H1) I1) as RL1. pose proof (remove_h_length _ _ (R_nodup _ _ H2) I2) as RL2.
    destruct (e_assoc e) eqn:EA.
    + assert (EG : n_group (mkn e x) = Some (e_mg e)) by (unfold mkn, grp; cbn; rewrite EA; congruence).
      pose proof (G (e_mg e)) as Gg. destruct (nm_find (e_mg e) (mg s)) as [ls|] eqn:E.
      2:{ exists s, PThrow, sp, a1, a2. split; auto. split; [eapply ps_xthrow; eauto|auto]. }
      rewrite drop_remove. eexists _, _, _, _, _. split; [reflexivity|]. split; [eapply ps_xassoc; eauto|].
      constructor; cbn [mg l1 l2 lag h1 h2 groups ngroups nodes nnodes lags with_nodes with_groups]; eauto using nm_put_ok, nm_del_ok.
      * intros g'. rewrite nm_find_put by auto. unfold put. rewrite (Nat.eqb_sym g' (e_mg e)). destruct (e_mg e =? g'); auto.
      * rewrite (nm_len_put_old _ _ _ _ O1 E). auto.
      * cbn. lia.
      * cbn. lia.
      * intros g' ls'. unfold put at 1. destruct (Nat.eqb_spec g' (e_mg e)) as [->|Ng]; intros X.
        -- injection X as <-. destruct (GR (e_mg e) ls ltac:(congruence)) as [Y Z]. split; [apply remove_h_nodup; auto|].
           intros h' I. apply in_remove in I as [I Nh]. rewrite put_other by auto. apply Z; auto.
        -- destruct (GR g' ls' X) as [Y Z]. split; auto. intros h' I. unfold put. destruct (Nat.eqb_spec h' h) as [->|Nh]; [|apply Z; auto].
           exfalso. destruct (Z h I) as (n & U & V). rewrite D in U. injection U as <-. rewrite EG in V. congruence.
    + assert (EG : n_group (mkn e x) = None) by (unfold mkn, grp; cbn; rewrite EA; auto).
      eexists _, _, _, _, _. split; [reflexivity|]. split; [eapply ps_xfree; eauto|].
      constructor; cbn [mg l1 l2 lag h1 h2 groups ngroups nodes nnodes lags with_nodes with_groups]; eauto using nm_put_ok, nm_del_ok.
      * cbn. lia.
      * cbn. lia.
      * intros g' ls' X. destruct (GR g' ls' X) as [Y Z]. split; auto. intros h' I. unfold put. destruct (Nat.eqb_spec h' h) as [->|Nh]; [|apply Z; auto].
        exfalso. destruct (Z h I) as (n & U & V). rewrite D in U. injection U as <-. rewrite EG in V. congruence.
  - (* update *) unfold node_update. destruct (valid_cases _ _ _ _ h H) as [(-> & A & B)|(-> & e & x & A & B & C & D)].
    { exists s, (PErr INVALID_L1_HANDLE), sp, a1, a2. split; auto. split; [constructor; auto|auto]. }
    rewrite A, B. eexists _, _, _, a1, a2. split; [reflexivity|]. split; [eapply ps_update; eauto|].
    constructor; cbn [mg l1 l2 lag h1 h2 groups ngroups nodes nnodes lags with_nodes with_groups]; eauto using nm_put_ok.
    + intros h'. rewrite nm_find_put by auto. rewrite L2. destruct (Nat.eqb_spec (e_l2 e) h') as [<-|]; intuition congruence.
    + intros h'. unfold put. destruct (Nat.eqb_spec h' h) as [->|Nh].
      * rewrite A. eexists. rewrite nm_find_put, Nat.eqb_refl by auto. split; [reflexivity|]. split; auto.
      * pose proof (NN h') as X. destruct (nm_find h' (l1 s)) as [e0|] eqn:E0; auto. destruct X as (x0 & X1 & X2 & X3). exists x0. split; auto.
        rewrite nm_find_put by auto. destruct (Nat.eqb_spec (e_l2 e) (e_l2 e0)) as [EE|]; auto. exfalso. eapply (l2_inj _ _ _ _ h h'); eauto.
    + intros g' ls' X. destruct (GR g' ls' X) as [Y Z]. split; auto. intros h' I. unfold put. destruct (Nat.eqb_spec h' h) as [->|Nh]; [|apply Z; auto].
      destruct (Z h I) as (n & U & V). rewrite D in U. injection U as <-. eexists. split; [reflexivity|]. auto.
  - (* lag *) unfold set_lag. destruct (Nat.ltb_spec lag_max i).
    { exists s, (PErr ERROR), sp, a1, a2. split; auto. split; [constructor; auto|auto]. }
    eexists _, _, _, a1, a2. split; [reflexivity|]. split; [apply ps_lag; auto|].
    constructor; cbn [mg l1 l2 lag h1 h2 groups ngroups nodes nnodes lags with_nodes with_groups]; eauto using nm_put_ok.
    intros i'. rewrite nm_find_put by auto. unfold put. rewrite (Nat.eqb_sym i' i). destruct (Nat.eqb_spec i i'); auto. apply LG.
  - (* reset *) eexists _, _, _, _, _. split; [reflexivity|]. split; [apply ps_reset|]. apply PI_empty.
  - (* replicate *) unfold replicate. pose proof (G g) as Gg. destruct (nm_find g (mg s)) as [ls|] eqn:E.
    + rewrite (node_loop_ok _ _ _ _ _ _ _ H).
      2:{ intros h I. destruct (GR g ls ltac:(congruence)) as [_ Z]. destruct (Z h I) as (n & U & _). congruence. }
      eexists _, _, _, a1, a2. split; [reflexivity|]. split; [|exact H].
      replace (flat_map _ ls) with (copies hash lagged sp g) by (unfold copies; rewrite <- Gg; auto). apply ps_rep.
    + eexists _, _, _, a1, a2. split; [reflexivity|]. split; [|exact H].
      replace (@nil (nat * nat)) with (copies hash lagged sp g) by (unfold copies; rewrite <- Gg; auto). apply ps_rep.
Qed.

Theorem run_ok ops : forall s sp a1 a2, PI s sp a1 a2 -> exists s' outs sp' a1' a2', p_run mg_max l1_max l2_max lag_max hash s ops = Some (s', outs) /\
  pspec_run mg_max l1_max l2_max lag_max hash sp ops outs sp' /\ PI s' sp' a1' a2'.
Proof.
  induction ops as [|o ops IH]; intros s sp a1 a2 H.
  - exists s, [], sp, a1, a2. split; [reflexivity|]. split; [constructor|auto].
  - destruct (step_ok s sp a1 a2 o H) as (s1 & x & sp1 & b1 & b2 & E & S & H1).
    destruct (IH _ _ _ _ H1) as (s2 & xs & sp2 & c1 & c2 & E2 & S2 & H2).
    exists s2, (x :: xs), sp2, c1, c2. cbn [p_run]. rewrite E, E2. split; [reflexivity|]. split; [econstructor; eauto|auto].
Qed.
End Step.
