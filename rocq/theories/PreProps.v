(** Theorems about multicast replication (C19, C20, C21). *)
From Coq Require Import List Arith Bool Lia.
From Verif Require Import Base NMap HandleMgrModel PreModel PreSpec PreProofs.
Import ListNotations.

Section P.
Variables (mg_max l1_max l2_max lag_max hash : nat).
Notation run := (p_run mg_max l1_max l2_max lag_max hash).
Notation spec := (pspec_step mg_max l1_max l2_max lag_max hash).
Notation spec_run := (pspec_run mg_max l1_max l2_max lag_max hash).

(** ** C20: every history of calls behaves as specified *)
Theorem C20_history : forall ops, exists s outs sp, run pre_empty ops = Some (s, outs) /\ spec_run ps_empty ops outs sp.
Proof.
  intros ops. destruct (run_ok mg_max l1_max l2_max lag_max hash ops _ _ _ _ PI_empty) as (s & outs & sp & _ & _ & A & B & _). eauto.
Qed.

Lemma spec_inv ops s outs : run pre_empty ops = Some (s, outs) ->
  exists sp, spec_run ps_empty ops outs sp /\
  (forall g ls, groups sp g = Some ls -> NoDup ls /\ forall h, In h ls -> exists n, nodes sp h = Some n /\ n_group n = Some g).
Proof.
  intros E. destruct (run_ok mg_max l1_max l2_max lag_max hash ops _ _ _ _ PI_empty) as (s' & outs' & sp & a1 & a2 & A & B & C).
  rewrite E in A. injection A as <- <-. exists sp. split; auto. apply (i_grp _ _ _ _ C).
Qed.

(** After any history: a node is listed at most once over all groups, and only in the group it is
    associated with. *)
Theorem C20_at_most_one_group : forall ops s outs, run pre_empty ops = Some (s, outs) ->
  exists sp, spec_run ps_empty ops outs sp /\
    forall g ls h, groups sp g = Some ls -> In h ls ->
      NoDup ls /\ (exists n, nodes sp h = Some n /\ n_group n = Some g) /\
      forall g' ls', groups sp g' = Some ls' -> In h ls' -> g' = g.
Proof.
  intros ops s outs E. destruct (spec_inv _ _ _ E) as (sp & S & I). exists sp. split; auto. intros g ls h G H.
  destruct (I g ls G) as [A B]. split; auto. destruct (B h H) as (n & C & D). split; [eauto|].
  intros g' ls' G' H'. destruct (I g' ls' G') as [_ B']. destruct (B' h H') as (n' & C' & D'). congruence.
Qed.

(** Histories that never destroy a group that still has nodes. *)
Inductive careful : pspec -> list pop -> list pout -> Prop :=
| cf_nil : forall s, careful s [] []
| cf_cons : forall s o x s' os xs, spec s o x s' ->
    (forall g h ls, o = PGDestroy g -> groups s g = Some ls -> ~ In h ls) ->
    careful s' os xs -> careful s (o :: os) (x :: xs).

Definition tight (s : pspec) : Prop := forall h n g, nodes s h = Some n -> n_group n = Some g -> exists ls, groups s g = Some ls /\ In h ls.
Definition lists (s : pspec) : Prop := forall g ls, groups s g = Some ls -> NoDup ls /\ forall h, In h ls -> exists n, nodes s h = Some n /\ n_group n = Some g.

Lemma tight_step s o x s' : spec s o x s' -> (forall g h ls, o = PGDestroy g -> groups s g = Some ls -> ~ In h ls) -> tight s -> lists s -> tight s' /\ lists s' /\ x <> PThrow.
Proof.
  intros H K T L. destruct H; try (split; [exact T|split; [exact L|discriminate]]; fail).
  - (* new group *) split; [|split; [|discriminate]].
    + intros h n g' A B. cbn in *. destruct (T h n g' A B) as (ls & C & D). exists ls. split; auto. rewrite put_other; auto. congruence.
    + intros g' ls. cbn. unfold put. destruct (g' =? g); [intros X; injection X as <-; split; [constructor|intros ? []]|apply L].
  - (* destroy group *) split; [|split; [|discriminate]].
    + intros h n g' A B. cbn in *. destruct (T h n g' A B) as (ls & C & D). exists ls. split; auto. rewrite put_other; auto. intros ->.
      exact (K g h ls eq_refl C D).
    + intros g' ls. cbn. unfold put. destruct (g' =? g); [discriminate|apply L].
  - (* new node *) split; [|split; [|discriminate]].
    + intros h' n g' A B. cbn in *. unfold put in A. destruct (Nat.eqb_spec h' h) as [->|]; [injection A as <-; discriminate|eapply T; eauto].
    + intros g' ls A. cbn in A. destruct (L g' ls A) as [X Y]. split; auto. intros h' I. destruct (Y h' I) as (n & U & V). exists n. cbn. rewrite put_other by congruence. auto.
  - (* associate *) split; [|split; [|discriminate]].
    + intros h' n' g' A B. cbn in *. unfold put in A. destruct (Nat.eqb_spec h' h) as [->|N].
      * injection A as <-. cbn in B. injection B as <-. exists (ls ++ [h]). rewrite put_same. split; auto. apply in_or_app. right; left; auto.
      * destruct (T h' n' g' A B) as (l' & C & D). unfold put. destruct (Nat.eqb_spec g' g) as [->|].
        -- exists (ls ++ [h]). split; auto. apply in_or_app. left. congruence.
        -- eauto.
    + intros g' ls' A. cbn in *. unfold put in A. destruct (Nat.eqb_spec g' g) as [->|N].
      * injection A as <-. destruct (L g ls H0) as [X Y]. split.
        -- apply nodup_snoc; auto. intros I. destruct (Y h I) as (m & U & V). congruence.
        -- intros h' I. unfold put. destruct (Nat.eqb_spec h' h) as [->|]; [eexists; split; [reflexivity|auto]|]. apply in_app_or in I as [I|[->|[]]]; [auto|congruence].
      * destruct (L g' ls' A) as [X Y]. split; auto. intros h' I. unfold put. destruct (Nat.eqb_spec h' h) as [->|]; auto. destruct (Y h I) as (m & U & V). congruence.
  - (* dissociate *) split; [|split; [|discriminate]].
    + intros h' n' g' A B. cbn in *. unfold put in A. destruct (Nat.eqb_spec h' h) as [->|N]; [injection A as <-; discriminate|].
      destruct (T h' n' g' A B) as (l' & C & D). unfold put. destruct (Nat.eqb_spec g' g) as [->|]; [|eauto].
      eexists. split; [reflexivity|]. apply in_in_remove; auto. congruence.
    + intros g' ls' A. cbn in *. unfold put in A. destruct (Nat.eqb_spec g' g) as [->|N].
      * injection A as <-. destruct (L g ls H0) as [X Y]. split; [apply HandleMgrProofs.remove_h_nodup; auto|].
        intros h' I. apply in_remove in I as [I Nh]. rewrite put_other by auto. auto.
      * destruct (L g' ls' A) as [X Y]. split; auto. intros h' I. unfold put. destruct (Nat.eqb_spec h' h) as [->|]; auto. destruct (Y h I) as (m & U & V). congruence.
  - (* throw *) exfalso. destruct (T h n g H H0) as (ls & A & _). congruence.
  - (* destroy associated *) split; [|split; [|discriminate]].
    + intros h' n' g' A B. cbn in *. unfold put in A. destruct (Nat.eqb_spec h' h) as [->|N]; [discriminate|].
      destruct (T h' n' g' A B) as (l' & C & D). unfold put. destruct (Nat.eqb_spec g' g) as [->|]; [|eauto].
      eexists. split; [reflexivity|]. apply in_in_remove; auto. congruence.
    + intros g' ls' A. cbn in *. unfold put in A. destruct (Nat.eqb_spec g' g) as [->|N].
      * injection A as <-. destruct (L g ls H1) as [X Y]. split; [apply HandleMgrProofs.remove_h_nodup; auto|].
        intros h' I. apply in_remove in I as [I Nh]. rewrite put_other by auto. auto.
      * destruct (L g' ls' A) as [X Y]. split; auto. intros h' I. unfold put. destruct (Nat.eqb_spec h' h) as [->|]; auto. destruct (Y h I) as (m & U & V). congruence.
  - (* destroy free *) split; [|split; [|discriminate]].
    + intros h' n' g' A B. cbn in *. unfold put in A. destruct (Nat.eqb_spec h' h) as [->|N]; [discriminate|]. eapply T; eauto.
    + intros g' ls' A. cbn in *. destruct (L g' ls' A) as [X Y]. split; auto. intros h' I. unfold put. destruct (Nat.eqb_spec h' h) as [->|]; auto. destruct (Y h I) as (m & U & V). congruence.
  - (* update *) split; [|split; [|discriminate]].
    + intros h' n' g' A B. cbn in *. unfold put in A. destruct (Nat.eqb_spec h' h) as [->|N]; [|eapply T; eauto]. injection A as <-. eapply T; eauto.
    + intros g' ls' A. cbn in *. destruct (L g' ls' A) as [X Y]. split; auto. intros h' I. unfold put. destruct (Nat.eqb_spec h' h) as [->|]; auto. destruct (Y h I) as (m & U & V).
      eexists. split; [reflexivity|]. cbn. congruence.
  - (* reset *) split; [|split; [|discriminate]]; intros ? ?; cbn; discriminate.
Qed.

Lemma careful_det s o x s' : spec s o x s' -> forall y s'', spec s o y s'' -> x = y ->
   groups s' = groups s'' /\ nodes s' = nodes s'' /\ lags s' = lags s'' /\ ngroups s' = ngroups s'' /\ nnodes s' = nnodes s''.
Proof.
  intros H y s'' H' E. subst y. destruct H; inversion H'; subst; try congruence; try lia; cbn;
    repeat match goal with A : nodes ?s ?h = Some ?n, B : nodes ?s ?h = Some ?m |- _ => assert (n = m) by congruence; subst m; clear B
         | A : groups ?s ?h = Some ?n, B : groups ?s ?h = Some ?m |- _ => assert (n = m) by congruence; subst m; clear B end; try congruence; auto.
  - replace g0 with g by congruence. assert (ls0 = ls) by congruence. subst. auto.
Qed.

Lemma spec_det s o x s' s'' : spec s o x s' -> spec s o x s'' -> s' = s''.
Proof.
  intros A B. destruct (careful_det _ _ _ _ A _ _ B eq_refl) as (E1 & E2 & E3 & E4 & E5). destruct s', s''; cbn in *. congruence.
Qed.

Lemma careful_run ops : forall s outs sp, spec_run s ops outs sp -> careful s ops outs -> tight s -> lists s -> tight sp /\ lists sp /\ ~ In PThrow outs.
Proof.
  induction ops as [|o ops IH]; intros s outs sp S C T L; inversion S; subst; [cbn; auto|]. inversion C; subst.
  match goal with A : spec s o x ?a, B : spec s o x ?b |- _ => pose proof (spec_det _ _ _ _ _ A B); subst end.
  match goal with A : spec s o x _, B : forall _ _ _, o = _ -> _ |- _ => destruct (tight_step _ _ _ _ A B T L) as (T' & L' & N) end.
  match goal with A : spec_run _ ops _ sp |- _ => destruct (IH _ _ _ A ltac:(eassumption) T' L') as (T'' & L'' & N') end.
  split; auto. split; auto. intros [X|I]; [congruence|auto].
Qed.

(** In a history that never destroys a group while nodes are associated with it: a node is in the
    replication list of a group exactly when it is associated with it, and no call throws. *)
Theorem C20_listed_exactly_when_associated : forall ops s outs, run pre_empty ops = Some (s, outs) -> careful ps_empty ops outs ->
  ~ In PThrow outs /\ exists sp, spec_run ps_empty ops outs sp /\
    forall h n g, nodes sp h = Some n -> (n_group n = Some g <-> exists ls, groups sp g = Some ls /\ In h ls).
Proof.
  intros ops s outs E C. destruct (spec_inv _ _ _ E) as (sp & S & I).
  destruct (careful_run _ _ _ _ S C) as (T & L & N); [intros ? ? ?; discriminate|intros ? ?; discriminate|].
  split; auto. exists sp. split; auto. intros h n g H. split; [apply T; auto|]. intros (ls & A & B). destruct (L g ls A) as [_ X].
  destruct (X h B) as (m & U & V). congruence.
Qed.

(** A refused call changes nothing at all. *)
Theorem C20_refused_calls_have_no_effect : forall s o s' c, p_step mg_max l1_max l2_max lag_max hash s o = Some (s', PErr c) -> s' = s.
Proof.
  intros s o s' c H. destruct o; cbn [p_step] in H; unfold mgrp_create, mgrp_destroy, node_create, node_associate, node_dissociate, node_destroy, node_update, set_lag, replicate in H;
  repeat match type of H with context [match ?x with _ => _ end] => destruct x eqn:?; try discriminate; try (injection H as <- _; reflexivity) end; try discriminate;
  injection H as <- _; reflexivity.
Qed.

(** ** C19: replication *)
Lemma run_last ops : forall s s' o outs, run s (ops ++ [o]) = Some (s', outs) ->
  exists s1 outs1 x, run s ops = Some (s1, outs1) /\ p_step mg_max l1_max l2_max lag_max hash s1 o = Some (s', x) /\ outs = outs1 ++ [x].
Proof.
  induction ops as [|a ops IH]; intros s s' o outs E; cbn [app p_run] in E.
  - destruct (p_step mg_max l1_max l2_max lag_max hash s o) as [[s1 x]|] eqn:X; [|discriminate]. injection E as <- <-. exists s, [], x. auto.
  - destruct (p_step mg_max l1_max l2_max lag_max hash s a) as [[s1 x]|] eqn:X; [|discriminate].
    destruct (run s1 (ops ++ [o])) as [[s2 xs]|] eqn:Y; [|discriminate]. injection E as <- <-.
    destruct (IH _ _ _ _ Y) as (s3 & o3 & z & A & B & ->). exists s3, (x :: o3), z. cbn [p_run]. rewrite X, A. auto.
Qed.

Definition pair_dec (x y : nat * nat) : {x = y} + {x <> y}.
Proof. decide equality; apply Nat.eq_dec. Defined.

(** Node [h] has replication id [rid] and port [port] in its port map. *)
Definition has_copy (sp : pspec) (rid port h : nat) : bool :=
  match nodes sp h with Some n => (n_rid n =? rid) && nth port (n_ports n) false | None => false end.

Lemma members_nodup l : NoDup (members l).
Proof. apply NoDup_filter, seq_NoDup. Qed.
Lemma members_In l p : In p (members l) <-> nth p l false = true.
Proof.
  unfold members. rewrite filter_In, in_seq. split; [tauto|]. intros H. split; auto. split; [lia|].
  destruct (Nat.lt_ge_cases p (length l)); auto. rewrite nth_overflow in H by auto. discriminate.
Qed.
Lemma count_map_pair r rid port l : NoDup l ->
  count_occ pair_dec (map (fun p => (r, p)) l) (rid, port) = if (r =? rid) && (if in_dec Nat.eq_dec port l then true else false) then 1 else 0.
Proof.
  induction 1 as [|x l N D IH]; cbn [map count_occ]; [destruct (r =? rid); reflexivity|].
  destruct (pair_dec (r, x) (rid, port)) as [E|E].
  - injection E as -> ->. rewrite IH, Nat.eqb_refl. cbn [andb]. destruct (in_dec Nat.eq_dec port l); [tauto|].
    destruct (in_dec Nat.eq_dec port (port :: l)) as [|X]; [reflexivity|exfalso; apply X; left; auto].
  - rewrite IH. destruct (Nat.eqb_spec r rid) as [->|]; cbn [andb]; auto.
    destruct (in_dec Nat.eq_dec port l), (in_dec Nat.eq_dec port (x :: l)) as [Z|Z]; auto.
    + exfalso. apply Z. right; auto.
    + destruct Z as [->|]; [congruence|tauto].
Qed.
Lemma port_copies_count n rid port : count_occ pair_dec (port_copies n) (rid, port) = if (n_rid n =? rid) && nth port (n_ports n) false then 1 else 0.
Proof.
  unfold port_copies. rewrite count_map_pair by apply members_nodup.
  destruct (in_dec Nat.eq_dec port (members (n_ports n))) as [I|I]; [apply members_In in I; rewrite I; auto|].
  destruct (nth port (n_ports n) false) eqn:E; auto. exfalso. apply I, members_In. auto.
Qed.

(** After any history, replicating a group gives, for every replication id and port, as many copies as
    there are nodes of the group with that id and that port; an unknown group gives none. *)
Theorem C19_replicate_exact : forall ops g s outs y, run pre_empty (ops ++ [PReplicate false g]) = Some (s, outs ++ [y]) ->
  exists sp l, spec_run ps_empty ops outs sp /\ y = PCopies l /\
    (groups sp g = None -> l = []) /\
    forall hs, groups sp g = Some hs -> NoDup hs /\
      forall rid port, count_occ pair_dec l (rid, port) = length (filter (has_copy sp rid port) hs).
Proof.
  intros ops g s outs y E. destruct (run_last _ _ _ _ _ E) as (s1 & o1 & x & A & B & C). apply app_inj_tail in C as [<- <-].
  destruct (run_ok mg_max l1_max l2_max lag_max hash ops _ _ _ _ PI_empty) as (s' & outs' & sp & a1 & a2 & A' & S & P).
  rewrite A in A'. injection A' as <- <-.
  destruct (step_ok mg_max l1_max l2_max lag_max hash _ _ _ _ (PReplicate false g) P) as (s2 & x2 & sp2 & b1 & b2 & B' & S2 & _).
  rewrite B in B'. injection B' as <- <-. inversion S2; subst. exists sp2, (copies hash false sp2 g). split; auto. split; auto. unfold copies.
  split; [intros ->; auto|]. intros hs G. rewrite G. destruct (i_grp _ _ _ _ P g hs G) as [ND NE]. split; auto. intros rid port. clear - NE. induction hs as [|h hs IH]; auto.
  cbn [flat_map filter]. rewrite count_occ_app, IH by (intros; apply NE; right; auto).
  destruct (NE h (or_introl eq_refl)) as (n & N & _). unfold has_copy at 2. rewrite N. rewrite app_nil_r, port_copies_count.
  destruct ((n_rid n =? rid) && nth port (n_ports n) false); auto.
Qed.

(** ** C21: LAGs *)
Definition populated (sp : pspec) (i : nat) : bool :=
  match lags sp i with Some ps => existsb (fun b => b) ps | None => false end.
Lemma existsb_members ps : existsb (fun b => b) ps = match members ps with [] => false | _ => true end.
Proof.
  destruct (existsb (fun b => b) ps) eqn:E.
  - apply existsb_exists in E as (b & I & ->). apply In_nth with (d := false) in I as (p & _ & X). apply members_In in X. destruct (members ps); [destruct X|auto].
  - destruct (members ps) as [|p r] eqn:M; auto. assert (In p (members ps)) by (rewrite M; left; auto). apply members_In in H.
    exfalso. assert (existsb (fun b => b) ps = true); [|congruence]. apply existsb_exists. exists true. split; auto.
    rewrite <- H. apply nth_In. destruct (Nat.lt_ge_cases p (length ps)); auto. rewrite nth_overflow in H by auto. discriminate.
Qed.

(** After any history, the copies of a group are those of its nodes, in order; each node yields one copy
    per port of its port map and exactly one copy for each LAG of its LAG map that has members, sent to
    a current member of that LAG with the replication id of the node. *)
Theorem C21_one_copy_per_lag : forall ops g s outs y, run pre_empty (ops ++ [PReplicate true g]) = Some (s, outs ++ [y]) ->
  exists sp, spec_run ps_empty ops outs sp /\
    (groups sp g = None -> y = PCopies []) /\
    forall hs, groups sp g = Some hs -> exists parts, y = PCopies (concat (map (fun p => fst p ++ snd p) parts)) /\
      Forall2 (fun h part => exists n, nodes sp h = Some n /\
          (forall rid port, count_occ pair_dec (fst part) (rid, port) = if (n_rid n =? rid) && nth port (n_ports n) false then 1 else 0) /\
          Forall2 (fun i c => fst c = n_rid n /\ exists ps, lags sp i = Some ps /\ nth (snd c) ps false = true)
                  (filter (fun i => nth i (n_lags n) false && populated sp i) (seq 0 (length (n_lags n)))) (snd part)) hs parts.
Proof.
  intros ops g s outs y E. destruct (run_last _ _ _ _ _ E) as (s1 & o1 & x & A & B & C). apply app_inj_tail in C as [<- <-].
  destruct (run_ok mg_max l1_max l2_max lag_max hash ops _ _ _ _ PI_empty) as (s' & outs' & sp & a1 & a2 & A' & S & P).
  rewrite A in A'. injection A' as <- <-.
  destruct (step_ok mg_max l1_max l2_max lag_max hash _ _ _ _ (PReplicate true g) P) as (s2 & x2 & sp2 & b1 & b2 & B' & S2 & _).
  rewrite B in B'. injection B' as <- <-. inversion S2; subst. exists sp2. split; auto. unfold copies.
  split; [intros ->; auto|]. intros hs G. rewrite G. destruct (i_grp _ _ _ _ P g hs G) as [_ NE]. clear - NE.
  exists (map (fun h => match nodes sp2 h with Some n => (port_copies n, lag_copies hash (lags sp2) n) | None => ([], []) end) hs). split.
  - f_equal. induction hs as [|h hs IH]; auto. cbn [flat_map map concat]. rewrite IH by (intros; apply NE; right; auto). f_equal.
    destruct (nodes sp2 h); auto.
  - induction hs as [|h hs IH]; cbn [map]; constructor; [|apply IH; intros; apply NE; right; auto].
    destruct (NE h (or_introl eq_refl)) as (n & N & _). rewrite N. exists n. split; auto. cbn [fst snd]. split; [intros; apply port_copies_count|].
    unfold lag_copies. change (members (n_lags n)) with (filter (fun i => nth i (n_lags n) false) (seq 0 (length (n_lags n)))). assert (Fil : forall l, filter (fun i => nth i (n_lags n) false && populated sp2 i) l = filter (populated sp2) (filter (fun i => nth i (n_lags n) false) l)).
    { induction l as [|a l IHl]; auto. cbn [filter]. destruct (nth a (n_lags n) false); cbn [andb filter]; rewrite IHl; auto. }
    rewrite Fil. generalize (filter (fun i => nth i (n_lags n) false) (seq 0 (length (n_lags n)))) as l.
    induction l as [|i l IHl]; cbn [filter flat_map]; [constructor|]. unfold populated at 1. destruct (lags sp2 i) as [ps|] eqn:L; [|exact IHl].
    rewrite existsb_members. destruct (members ps) as [|m0 m] eqn:M; [exact IHl|]. cbn [app]. constructor; [|exact IHl].
    cbn [fst snd]. split; auto. exists ps. split; auto. apply members_In. rewrite M. apply nth_In. apply Nat.mod_upper_bound. discriminate.
Qed.
End P.

(** ** Findings *)
(** Destroying a group leaves its nodes marked as associated: such a node can then be neither
    associated with another group nor dissociated nor destroyed (the latter throws). *)
Theorem C20_destroyed_group_strands_nodes_refuted :
  ~ (forall ops s outs, p_run 4096 4096 8192 256 255 pre_empty ops = Some (s, outs) -> ~ In PThrow outs).
Proof.
  intros H. destruct (p_run 4096 4096 8192 256 255 pre_empty [PGCreate 1; PNCreate 5 [true] []; PAssoc 1 0; PGDestroy 1; PNDestroy 0]) as [[s outs]|] eqn:E.
  - specialize (H _ _ _ E). vm_compute in E. injection E as _ <-. apply H. do 4 right. left; auto.
  - vm_compute in E. discriminate.
Qed.
Example ex_stranded : option_map snd (p_run 4096 4096 8192 256 255 pre_empty
   [PGCreate 1; PGCreate 2; PNCreate 5 [true] []; PAssoc 1 0; PGDestroy 1; PAssoc 2 0; PDissoc 1 0; PDissoc 2 0; PNDestroy 0; PGCreate 1; PReplicate false 1; PNDestroy 0]) =
  Some [POk; POk; PHandle 0; POk; POk; PErr ERROR; PErr INVALID_MGRP_HANDLE; PErr ERROR; PThrow; POk; PCopies []; POk].
Proof. vm_compute. reflexivity. Qed.
(** LAG 300 fits in the LAG map of a node (512 bits) but can never be given members. *)
Theorem C21_every_lag_can_have_members_refuted :
  ~ (forall i, i < 512 -> forall s outs, p_run 4096 4096 8192 256 255 pre_empty [PLag i [true]] = Some (s, outs) -> outs = [POk]).
Proof.
  intros H. specialize (H 300 ltac:(lia)). destruct (p_run 4096 4096 8192 256 255 pre_empty [PLag 300 [true]]) as [[s outs]|] eqn:E; [|vm_compute in E; discriminate].
  specialize (H _ _ eq_refl). vm_compute in E. injection E as _ <-. discriminate.
Qed.

(** ** Non-vacuity *)
Definition ex_ops : list pop :=
  [PGCreate 7; PNCreate 10 [true; false; true] [false; true; true]; PNCreate 11 [false; true] []; PAssoc 7 0; PAssoc 7 1;
   PLag 1 [false; true; true]; PLag 2 [false; false]; PAssoc 7 0; PNUpdate 1 [true; true] None; PNDestroy 5].
Example ex_run : option_map snd (p_run 4096 4096 8192 256 255 pre_empty (ex_ops ++ [PReplicate true 7; PReplicate false 7; PReplicate false 8; PDissoc 7 0; PReplicate true 7; PNDestroy 1; PReplicate true 7])) =
  Some [POk; PHandle 0; PHandle 1; POk; POk; POk; POk; PErr ERROR; POk; PErr INVALID_L1_HANDLE;
        PCopies [(10, 0); (10, 2); (10, 2); (11, 0); (11, 1)]; PCopies [(10, 0); (10, 2); (11, 0); (11, 1)]; PCopies []; POk; PCopies [(11, 0); (11, 1)]; POk; PCopies []].
Proof. vm_compute. reflexivity. Qed.
Example ex_careful : exists s outs, p_run 4096 4096 8192 256 255 pre_empty [PGCreate 7; PGDestroy 7] = Some (s, outs) /\
  careful 4096 4096 8192 256 255 ps_empty [PGCreate 7; PGDestroy 7] outs.
Proof.
  do 2 eexists. split; [vm_compute; reflexivity|]. econstructor; [apply ps_gnew; cbn; [lia|reflexivity]|discriminate|].
  econstructor; [eapply ps_gdel; reflexivity| |constructor]. intros g h ls X. injection X as <-. cbn. intros Y. injection Y as <-. auto.
Qed.

Print Assumptions C19_replicate_exact.
Print Assumptions C20_history.
Print Assumptions C20_at_most_one_group.
Print Assumptions C20_listed_exactly_when_associated.
Print Assumptions C20_refused_calls_have_no_effect.
Print Assumptions C20_destroyed_group_strands_nodes_refuted.
Print Assumptions C21_one_copy_per_lag.
Print Assumptions C21_every_lag_can_have_members_refuted.
