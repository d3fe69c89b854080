(** Proofs about PI group selection. *)
From Coq Require Import List Arith NArith Bool Lia Sorted.
From Verif Require Import Base HandleMgrModel HandleMgrSpec HandleMgrProofs MatchUnitModel ProfileModel ProfileSpec
  ProfileProofs ProfileProofs2 ProfileProofs3 ProfileProofs4 PiSelModel PiSelSpec.
Import ListNotations.

Lemma sel_find_erase s g k : sel_find (sel_erase s g) k = if k =? g then None else sel_find s k.
Proof.
  induction s as [|[a i] s IH]; cbn [sel_erase sel_find]; [destruct (k =? g); auto|].
  destruct (Nat.eqb_spec a g) as [->|X].
  - rewrite IH. destruct (Nat.eqb_spec k g); auto. destruct (Nat.eqb_spec g k); congruence.
  - cbn [sel_find]. rewrite IH. destruct (Nat.eqb_spec a k) as [->|Y]; auto.
    destruct (Nat.eqb_spec k g); congruence.
Qed.
Lemma sel_find_put s g i k : sel_find (sel_put s g i) k = if k =? g then Some i else sel_find s k.
Proof.
  unfold sel_put. cbn [sel_find]. rewrite sel_find_erase, (Nat.eqb_sym g k). destruct (k =? g); auto.
Qed.

Lemma mem_iff x l : set_mem x l = false <-> ~ In x l.
Proof. rewrite <- set_mem_In. destruct (set_mem x l); split; congruence. Qed.
Lemma mem_dec x (l : list nat) : {In x l} + {~ In x l}.
Proof. apply in_dec, Nat.eq_dec. Qed.

Lemma ras_add_In m l y : In y (fst (ras_add m l)) <-> y = m \/ In y l.
Proof.
  unfold ras_add. destruct (set_mem m l) eqn:E; cbn [fst]; [|apply set_ins_In].
  apply set_mem_In in E. split; auto. intros [->|]; auto.
Qed.
Lemma ras_add_sorted m l : StronglySorted lt l -> StronglySorted lt (fst (ras_add m l)).
Proof.
  intros H. unfold ras_add. destruct (set_mem m l) eqn:E; cbn [fst]; auto.
  apply set_ins_sorted; auto. apply mem_iff; auto.
Qed.
Lemma ras_remove_In m l y : StronglySorted lt l -> In y (fst (ras_remove m l)) <-> y <> m /\ In y l.
Proof.
  intros H. unfold ras_remove. destruct (set_mem m l) eqn:E; cbn [fst]; [apply set_del_In; auto|].
  apply mem_iff in E. split; [|tauto]. intros I. split; auto. congruence.
Qed.
Lemma ras_remove_sorted m l : StronglySorted lt l -> StronglySorted lt (fst (ras_remove m l)).
Proof. intros H. unfold ras_remove. destruct (set_mem m l); cbn [fst]; auto. apply set_del_sorted; auto. Qed.

(** One group: its members [M], those switched off [O], and what the selector holds. *)
Definition grel (M O : nat -> Prop) (o : option ginfo) : Prop :=
  match o with
  | Some i => gi_mem i <> [] /\ StronglySorted lt (gi_mem i) /\ (forall m, In m (gi_mem i) <-> M m) /\
              StronglySorted lt (gi_act i) /\ (forall m, In m (gi_act i) -> M m) /\
              (forall m, O m <-> M m /\ ~ In m (gi_act i))
  | None => forall m, ~ M m /\ ~ O m
  end.

Lemma grel_ext (M M' O O' : nat -> Prop) o : (forall m, M m <-> M' m) -> (forall m, O m <-> O' m) ->
  grel M O o -> grel M' O' o.
Proof.
  intros HM HO. destruct o as [i|]; cbn [grel].
  - intros (A & B & C & D & E & F). split; [auto|]. split; [auto|]. split; [intros m; rewrite C; auto|].
    split; [auto|]. split; [intros m I; apply HM; auto|]. intros m. rewrite <- HO, F, HM. tauto.
  - intros H m. rewrite <- HM, <- HO. auto.
Qed.

Lemma grel_add s g m M O : grel M O (sel_find s g) -> ~ M m ->
  grel (fun x => x = m \/ M x) O (sel_find (sel_add s g m) g).
Proof.
  intros H N. unfold sel_add. rewrite sel_find_put, Nat.eqb_refl. unfold sel_at.
  destruct (sel_find s g) as [i|]; cbn [grel] in *.
  - destruct H as (A & B & C & D & E & F). unfold gi_add; cbn [gi_mem gi_act].
    split. { intros Q. assert (I : In m (fst (ras_add m (gi_mem i)))) by (apply ras_add_In; auto). rewrite Q in I. destruct I. }
    split; [apply ras_add_sorted; auto|]. split; [intros x; rewrite ras_add_In, C; tauto|].
    split; [apply ras_add_sorted; auto|]. split; [intros x; rewrite ras_add_In; intros [|]; auto|].
    intros x. rewrite ras_add_In, F. split; [|tauto]. intros [P Q]. split; [tauto|]. intros [->|]; tauto.
  - assert (SS : StronglySorted lt [m]) by (constructor; constructor).
    unfold gi_add; cbn. split; [discriminate|]. split; [exact SS|].
    split; [intros x; specialize (H x); intuition|]. split; [exact SS|].
    split; [intros x Q; destruct Q as [Q|Q]; [auto|destruct Q]|]. intros x. specialize (H x).
    split; [tauto|]. intros [[Q|Q] Z]; [|tauto]. exfalso. apply Z. auto.
Qed.

Lemma grel_remove s g m M O : grel M O (sel_find s g) ->
  grel (fun x => x <> m /\ M x) (fun x => x <> m /\ O x) (sel_find (sel_remove s g m) g).
Proof.
  intros H. unfold sel_remove, sel_at.
  assert (T : match gi_mem (gi_remove match sel_find s g with Some i => i | None => gi_new end m) with
              | [] => forall x, ~ (x <> m /\ M x) /\ ~ (x <> m /\ O x)
              | _ => grel (fun x => x <> m /\ M x) (fun x => x <> m /\ O x)
                       (Some (gi_remove match sel_find s g with Some i => i | None => gi_new end m))
              end).
  { destruct (sel_find s g) as [i|]; cbn [grel] in H.
    - destruct H as (A & B & C & D & E & F).
      assert (MM : forall x, In x (gi_mem (gi_remove i m)) <-> x <> m /\ M x)
        by (intros x; unfold gi_remove; cbn [gi_mem]; rewrite ras_remove_In, C by auto; tauto).
      destruct (gi_mem (gi_remove i m)) as [|a l] eqn:G.
      + intros x. specialize (MM x). specialize (F x). cbn [In] in MM. tauto.
      + cbn [grel]. rewrite G. split; [discriminate|]. split; [rewrite <- G; apply ras_remove_sorted; auto|].
        split; [auto|]. unfold gi_remove; cbn [gi_act]. split; [apply ras_remove_sorted; auto|].
        split; [intros x; rewrite ras_remove_In by auto; intros [? ?]; auto|].
        intros x. rewrite ras_remove_In, F by auto. tauto.
    - cbn. intros x. specialize (H x). tauto. }
  destruct (gi_mem _) as [|a l] eqn:G in T |- *.
  - rewrite sel_find_erase, Nat.eqb_refl. exact T.
  - rewrite sel_find_put, Nat.eqb_refl. exact T.
Qed.
Lemma sel_remove_other s g m k : k <> g -> sel_find (sel_remove s g m) k = sel_find s k.
Proof.
  intros H. unfold sel_remove. destruct (gi_mem _).
  - rewrite sel_find_erase. destruct (Nat.eqb_spec k g); congruence.
  - rewrite sel_find_put. destruct (Nat.eqb_spec k g); congruence.
Qed.
Lemma sel_add_other s g m k : k <> g -> sel_find (sel_add s g m) k = sel_find s k.
Proof. intros H. unfold sel_add. rewrite sel_find_put. destruct (Nat.eqb_spec k g); congruence. Qed.

Lemma grel_fold g l : forall s M O, grel M O (sel_find s g) ->
  grel (fun x => M x /\ ~ In x l) (fun x => O x /\ ~ In x l)
    (sel_find (fold_left (fun s m => sel_remove s g m) l s) g).
Proof.
  induction l as [|m l IH]; intros s M O H; cbn [fold_left].
  - eapply grel_ext; [| |exact H]; intros x; cbn [In]; tauto.
  - eapply grel_ext; [| |apply IH, grel_remove, H]; intros x; cbn [In]; intuition.
Qed.
Lemma fold_other g l k : k <> g -> forall s,
  sel_find (fold_left (fun s m => sel_remove s g m) l s) k = sel_find s k.
Proof.
  intros H. induction l as [|m l IH]; intros s; cbn [fold_left]; auto. rewrite IH, sel_remove_other; auto.
Qed.

(** Activation. *)
Lemma grel_activate s g m M O : grel M O (sel_find s g) -> let '(s', c) := sel_activate s g m in
  (forall k, k <> g -> sel_find s' k = sel_find s k) /\
  ((~ M m /\ c = SNotIn /\ grel M O (sel_find s' g)) \/
   (M m /\ O m /\ c = SOk /\ grel M (fun x => O x /\ x <> m) (sel_find s' g)) \/
   (M m /\ ~ O m /\ c = SErr /\ grel M O (sel_find s' g))).
Proof.
  intros H. unfold sel_activate. destruct (sel_find s g) as [i|] eqn:Ef; cbn [grel] in H.
  - destruct H as (A & B & C & D & E & F). unfold gi_activate. destruct (set_mem m (gi_mem i)) eqn:Em.
    + apply set_mem_In, C in Em. unfold ras_add. destruct (set_mem m (gi_act i)) eqn:Ea.
      * split; [intros k X; rewrite sel_find_put; destruct (Nat.eqb_spec k g); congruence|].
        apply set_mem_In in Ea. right; right. split; [auto|]. split; [rewrite F; tauto|]. split; [auto|].
        rewrite sel_find_put, Nat.eqb_refl. cbn [grel gi_mem gi_act]. auto 10.
      * split; [intros k X; rewrite sel_find_put; destruct (Nat.eqb_spec k g); congruence|].
        apply mem_iff in Ea. right; left. split; [auto|]. split; [rewrite F; tauto|]. split; [auto|].
        rewrite sel_find_put, Nat.eqb_refl. cbn [grel gi_mem gi_act].
        split; [auto|]. split; [auto|]. split; [auto|]. split; [apply set_ins_sorted; auto|].
        split; [intros x; rewrite set_ins_In; intros [->|]; auto|].
        intros x. rewrite set_ins_In, F. tauto.
    + split; [intros k X; rewrite sel_find_put; destruct (Nat.eqb_spec k g); congruence|].
      apply mem_iff in Em. left. split; [rewrite <- C; auto|]. split; [auto|].
      rewrite sel_find_put, Nat.eqb_refl. cbn [grel]. auto 10.
  - split; [auto|]. left. split; [apply H|]. split; [auto|]. rewrite Ef. exact H.
Qed.
Lemma grel_deactivate s g m M O : grel M O (sel_find s g) -> let '(s', c) := sel_deactivate s g m in
  (forall k, k <> g -> sel_find s' k = sel_find s k) /\
  ((~ M m /\ c = SNotIn /\ grel M O (sel_find s' g)) \/
   (M m /\ ~ O m /\ c = SOk /\ grel M (fun x => O x \/ x = m) (sel_find s' g)) \/
   (M m /\ O m /\ c = SErr /\ grel M O (sel_find s' g))).
Proof.
  intros H. unfold sel_deactivate. destruct (sel_find s g) as [i|] eqn:Ef; cbn [grel] in H.
  - destruct H as (A & B & C & D & E & F). unfold gi_deactivate. destruct (set_mem m (gi_mem i)) eqn:Em.
    + apply set_mem_In, C in Em. unfold ras_remove. destruct (set_mem m (gi_act i)) eqn:Ea.
      * split; [intros k X; rewrite sel_find_put; destruct (Nat.eqb_spec k g); congruence|].
        apply set_mem_In in Ea. right; left. split; [auto|]. split; [rewrite F; tauto|]. split; [auto|].
        rewrite sel_find_put, Nat.eqb_refl. cbn [grel gi_mem gi_act].
        split; [auto|]. split; [auto|]. split; [auto|]. split; [apply set_del_sorted; auto|].
        split; [intros x; rewrite set_del_In by auto; intros [? ?]; auto|].
        intros x. rewrite set_del_In, F by auto. destruct (Nat.eq_dec x m) as [->|]; tauto.
      * split; [intros k X; rewrite sel_find_put; destruct (Nat.eqb_spec k g); congruence|].
        apply mem_iff in Ea. right; right. split; [auto|]. split; [rewrite F; tauto|]. split; [auto|].
        rewrite sel_find_put, Nat.eqb_refl. cbn [grel gi_mem gi_act]. auto 10.
    + split; [intros k X; rewrite sel_find_put; destruct (Nat.eqb_spec k g); congruence|].
      apply mem_iff in Em. left. split; [rewrite <- C; auto|]. split; [auto|].
      rewrite sel_find_put, Nat.eqb_refl. cbn [grel]. auto 10.
  - split; [auto|]. left. split; [apply H|]. split; [auto|]. rewrite Ef. exact H.
Qed.

(** Handles. *)
Lemma hdl_mbr m : (N.of_nat m < 2 ^ 32)%N -> hdl32 (mbr_handle m) = m.
Proof. intros H. unfold hdl32, mbr_handle. rewrite N.mod_small by auto. apply Nat2N.id. Qed.
Lemma hdl_grp g : (N.of_nat g < 2 ^ 32)%N -> hdl32 (clear_grp_h (grp_handle g)) = g.
Proof.
  intros H. unfold hdl32, clear_grp_h, grp_handle.
  replace (2 ^ 63 - 1)%N with (N.ones 63) by reflexivity. rewrite N.land_ones.
  replace (N.of_nat g + 2 ^ 63)%N with (N.of_nat g + 1 * 2 ^ 63)%N by lia.
  rewrite N.mod_add by discriminate. rewrite (N.mod_small (N.of_nat g) (2 ^ 63)).
  - rewrite N.mod_small by auto. apply Nat2N.id.
  - eapply N.lt_trans; [exact H|reflexivity].
Qed.

Section World.
Variables (np : nat -> nat) (cs : list itcfg).
Hypothesis CO : cfg_ok cs.

Record SR (s : sstate) (t : sst) : Prop := {
  sr_w : WR cs (s_w s) (base t);
  sr_g : forall g, grel (in_group (base t) g) (off t g) (sel_find (s_sel s) g) }.

Lemma SR_new : SR (s_new cs) (sst0 cs).
Proof.
  constructor; cbn.
  - apply WR_new; auto.
  - intros g m. split; auto. intros (l & E & _). discriminate.
Qed.

Lemma off_in s t g m : SR s t -> off t g m -> in_group (base t) g m.
Proof.
  intros H O. pose proof (sr_g _ _ H g) as G. destruct (sel_find (s_sel s) g) as [i|]; cbn [grel] in G.
  - apply G, O.
  - destruct (G m) as [_ X]. tauto.
Qed.

(** Calls that leave every group's members as they were. *)
Definition plain (o : pop) : Prop :=
  match o with PJoin _ _ | PLeave _ _ | PDelGroup _ | PReset | IApply _ _ _ _ _ => False | _ => True end.
Lemma plain_groups s o x s' : pspec_step np cs s o x s' -> plain o -> forall g m, in_group s g m <-> in_group s' g m.
Proof.
  intros H P g m. unfold in_group.
  inversion H; subst; cbn [plain] in P; try tauto; cbn [g_of set_m set_g set_t].
  unfold upd. destruct (Nat.eqb_spec g g0) as [->|X]; [|tauto].
  split; intros (l & E & I); [congruence|]. injection E as <-. destruct I.
Qed.

Lemma hook_plain p s o x : plain o -> sel_hook p s o x = s.
Proof. destruct o; cbn; tauto. Qed.

Lemma refused_groups s o x s' : pspec_step np cs s o x s' -> x <> POk ->
  match o with PJoin _ _ | PLeave _ _ | PDelGroup _ => True | _ => False end -> s' = s.
Proof. intros H N P. inversion H; subst; cbn in P; try tauto; congruence. Qed.
Lemma hook_refused p s o x : x <> POk ->
  match o with PJoin _ _ | PLeave _ _ | PDelGroup _ => True | _ => False end -> sel_hook p s o x = s.
Proof. destruct o; cbn; try tauto; destruct x; tauto. Qed.

Lemma pout_ok x : x = POk \/ x <> POk.
Proof. destruct x; auto; right; discriminate. Qed.

Lemma call_sim s t o : SR s t -> pop_ok cs o -> ~ is_apply o ->
  exists w x b, w_step np cs (s_w s) o = Some (w, x) /\ pspec_step np cs (base t) o x b /\
    (~ dirty o x -> SR (mkS w (sel_hook (w_prof (s_w s)) (s_sel s) o x))
                       (mkSst b (fun g m => off t g m /\ in_group b g m))).
Proof.
  intros H O NA. destruct (step_sim np cs CO (s_w s) (base t) o (sr_w _ _ H) O) as (w & x & b & E & Sp & W).
  exists w, x, b. split; [auto|]. split; [auto|]. intros D. constructor; [exact (W D)|].
  cbn [s_sel base off]. intros g. pose proof (sr_g _ _ H g) as G.
  assert (KEEP : (forall m, in_group (base t) g m <-> in_group b g m) ->
    sel_find (sel_hook (w_prof (s_w s)) (s_sel s) o x) g = sel_find (s_sel s) g ->
    grel (in_group b g) (fun m => off t g m /\ in_group b g m)
      (sel_find (sel_hook (w_prof (s_w s)) (s_sel s) o x) g)).
  { intros K ->. eapply grel_ext; [exact K| |exact G]. intros m. split; [|tauto].
    intros Q. split; auto. apply K. eapply off_in; eauto. }
  assert (CASES : plain o \/ (match o with PJoin _ _ | PLeave _ _ | PDelGroup _ => True | _ => False end) \/
                  o = PReset) by (destruct o; cbn in *; tauto).
  destruct CASES as [P|[P|P]].
  - apply KEEP; [intros m; eapply plain_groups; eauto|]. rewrite hook_plain; auto.
  - destruct (pout_ok x) as [->|X].
    2:{ rewrite (refused_groups _ _ _ _ Sp X P) in *. apply KEEP; [tauto|]. rewrite hook_refused; auto. }
    destruct o; cbn in P; try tauto; cbn [sel_hook].
    + (* delete group *)
      inversion Sp; subst. match goal with Q : g_of _ g0 <> None |- _ => rename Q into Gn end.
      destruct (g_of (base t) g0) as [l|] eqn:El; [|congruence].
      rewrite (pr_gr _ _ _ _ (wr_p _ _ _ (sr_w _ _ H)) _ _ El).
      destruct (Nat.eq_dec g g0) as [->|X].
      * eapply grel_ext; [| |apply (grel_fold g0 l _ _ _ G)]; intros m; unfold in_group, set_g, upd;
          cbn [g_of]; rewrite Nat.eqb_refl.
        -- split; [|intros (? & Q & _); discriminate]. intros [(l' & Q & I) N]. congruence.
        -- split; [|intros (? & ? & Q & _); discriminate]. intros [Q N].
           destruct (off_in _ _ _ _ H Q) as (l' & Q' & I). congruence.
      * eapply grel_ext; [| |]. 3:{ rewrite fold_other by auto. exact G. }
        -- intros m. unfold in_group, set_g, upd; cbn [g_of]. destruct (Nat.eqb_spec g g0); tauto.
        -- intros m. split; [|tauto]. intros Q. split; auto. pose proof (off_in _ _ _ _ H Q) as I.
           unfold in_group, set_g, upd in *; cbn [g_of]. destruct (Nat.eqb_spec g g0); tauto.
    + (* join *)
      inversion Sp; subst. match goal with Q : g_of _ g0 = Some _ |- _ => rename Q into El end.
      match goal with Q : forall x, In x l' <-> _ |- _ => rename Q into IL end.
      destruct (Nat.eq_dec g g0) as [->|X].
      * assert (IG : forall x, in_group (base t) g0 x <-> In x l)
          by (intros x; unfold in_group; rewrite El; split; [intros (? & Q & ?); congruence|eauto]).
        assert (IG' : forall x, in_group (set_g (base t) g0 (Some l')) g0 x <-> x = m \/ In x l).
        { intros x. unfold in_group, set_g, upd; cbn [g_of]. rewrite Nat.eqb_refl, <- IL.
          split; [intros (? & Q & ?); congruence|eauto]. }
        eapply grel_ext; [| |apply (grel_add _ _ m _ _ G)].
        -- intros x. rewrite IG', IG. tauto.
        -- intros x. rewrite IG'. split; [|tauto]. intros Q. split; auto. right. apply IG. eapply off_in; eauto.
        -- rewrite IG. auto.
      * eapply grel_ext; [| |]. 3:{ rewrite sel_add_other by auto. exact G. }
        -- intros x. unfold in_group, set_g, upd; cbn [g_of]. destruct (Nat.eqb_spec g g0); tauto.
        -- intros x. split; [|tauto]. intros Q. split; auto. pose proof (off_in _ _ _ _ H Q) as I.
           unfold in_group, set_g, upd in *; cbn [g_of]. destruct (Nat.eqb_spec g g0); tauto.
    + (* leave *)
      inversion Sp; subst. match goal with Q : g_of _ g0 = Some _ |- _ => rename Q into El end.
      match goal with Q : forall x, In x l' <-> _ |- _ => rename Q into IL end.
      destruct (Nat.eq_dec g g0) as [->|X].
      * assert (IG : forall x, in_group (base t) g0 x <-> In x l)
          by (intros x; unfold in_group; rewrite El; split; [intros (? & Q & ?); congruence|eauto]).
        assert (IG' : forall x, in_group (set_g (base t) g0 (Some l')) g0 x <-> x <> m /\ In x l).
        { intros x. unfold in_group, set_g, upd; cbn [g_of]. rewrite Nat.eqb_refl, <- IL.
          split; [intros (? & Q & ?); congruence|eauto]. }
        eapply grel_ext; [| |apply (grel_remove _ _ m _ _ G)].
        -- intros x. rewrite IG', IG. tauto.
        -- intros x. rewrite IG'. split; [|tauto]. intros [Q1 Q]. split; auto. split; auto.
           apply IG. eapply off_in; eauto.
      * eapply grel_ext; [| |]. 3:{ rewrite sel_remove_other by auto. exact G. }
        -- intros x. unfold in_group, set_g, upd; cbn [g_of]. destruct (Nat.eqb_spec g g0); tauto.
        -- intros x. split; [|tauto]. intros Q. split; auto. pose proof (off_in _ _ _ _ H Q) as I.
           unfold in_group, set_g, upd in *; cbn [g_of]. destruct (Nat.eqb_spec g g0); tauto.
  - subst o. exfalso. apply D. exact I.
Qed.

(** A packet. *)
Lemma lookup_sim s t x hash : SR s t ->
  (exists a, s_lookup (w_prof (s_w s)) (s_sel s) x hash = Some a /\ sserves t hash x a) \/
  (s_lookup (w_prof (s_w s)) (s_sel s) x hash = None /\ unserved t (SLookup x hash)).
Proof.
  intros H. pose proof (wr_p _ _ _ (sr_w _ _ H)) as P. unfold s_lookup. destruct x as [m|g]; cbn [unserved].
  - rewrite (HR_valid _ _ _ m (pr_m _ _ _ _ P)). destruct (m_of (base t) m) as [a|] eqn:E; cbn [some].
    + rewrite (pr_e _ _ _ _ P _ _ E). left. exists a. split; auto. apply ssv_mbr; auto.
    + right. auto.
  - rewrite (HR_valid _ _ _ g (pr_g _ _ _ _ P)). destruct (g_of (base t) g) as [l|] eqn:E; cbn [some]; [|right; auto].
    pose proof (sr_g _ _ H g) as G. unfold sel_get. destruct (sel_find (s_sel s) g) as [i|]; cbn [grel] in G.
    + destruct G as (A & B & C & D & F & Q).
      assert (CH : gi_get i (match hash with None => 0%N | Some h => (h mod 2 ^ 32)%N end) = choose (gi_act i) hash)
        by (unfold gi_get, choose; destruct (gi_act i), hash; reflexivity).
      rewrite CH. destruct (gi_act i) as [|a r] eqn:Ea.
      * right. split; [reflexivity|]. right. intros m I. apply Q. split; auto. 
      * rewrite <- Ea in *. assert (NE : gi_act i <> []) by congruence. rewrite (choose_pick _ hash NE).
        destruct (F _ (pick_In _ hash NE)) as (l' & E' & I').
        assert (MV : m_of (base t) (pick (gi_act i) hash) <> None) by (eapply group_members_live; eauto; apply (sr_w _ _ H)).
        rewrite (HR_valid _ _ _ (pick (gi_act i) hash) (pr_m _ _ _ _ P)).
        destruct (m_of (base t) (pick (gi_act i) hash)) as [e|] eqn:Em; [|congruence]. cbn [some].
        rewrite (pr_e _ _ _ _ P _ _ Em). left. exists e. split; auto.
        apply ssv_grp with (l := gi_act i); auto; [congruence|]. split; [auto|].
        intros m. rewrite Q. destruct (mem_dec m (gi_act i)) as [Y|Y]; [split; [intros _; split; auto; tauto|auto]|].
        split; [tauto|]. intros [Z1 Z2]. exfalso. tauto.
    + right. split; [reflexivity|]. right. intros m I. destruct (G m). tauto.
Qed.

Lemma sdirty_dec s t o x : SR s t -> sdirty t o x \/ ~ sdirty t o x.
Proof.
  intros H. destruct o; cbn; auto.
  - destruct x; auto. apply dirty_dec.
  - assert (K : (exists g i, In (g, i) (s_sel s) /\ exists m, in_group (base t) g m) \/
                forall g i, In (g, i) (s_sel s) -> forall m, ~ in_group (base t) g m).
    { induction (s_sel s) as [|[g i] r IH]; [right; intros ? ? []|].
      destruct IH as [(g' & i' & I & Q)|IH]; [left; exists g', i'; split; [right; auto|auto]|].
      pose proof (sr_g _ _ H g) as G.
      destruct (sel_find (s_sel s) g) as [j|]; cbn [grel] in G.
      - left. exists g, i. split; [left; auto|]. destruct G as (A & _ & C & _).
        destruct (gi_mem j) as [|m ?]; [congruence|]. exists m. apply C. left. auto.
      - right. intros g' i' [Q|Q]; [injection Q as <- <-; intros m; apply G|eapply IH; eauto]. }
    destruct K as [(g & i & _ & m & Q)|K]; [left; eauto|right].
    intros (g & m & Q). pose proof (sr_g _ _ H g) as G. destruct (sel_find (s_sel s) g) as [i|] eqn:E; cbn [grel] in G.
    + revert E K Q. induction (s_sel s) as [|[a j] r IH]; cbn [sel_find]; [discriminate|].
      destruct (Nat.eqb_spec a g) as [->|]; intros E K Q.
      * eapply (K g j); eauto. left. auto.
      * apply IH; auto. intros g' i' I. apply (K g' i'). right. auto.
    + destruct (G m). tauto.
Qed.

Lemma sr_upd s t l g O' : SR s t -> (forall k, k <> g -> sel_find l k = sel_find (s_sel s) k) ->
  (forall k, k <> g -> forall m, off t k m <-> O' k m) -> grel (in_group (base t) g) (O' g) (sel_find l g) ->
  SR (mkS (s_w s) l) (mkSst (base t) O').
Proof.
  intros H K HO G. constructor; [apply (sr_w _ _ H)|]. cbn [s_sel base off]. intros k.
  destruct (Nat.eq_dec k g) as [->|X]; [exact G|]. rewrite K by auto.
  eapply grel_ext; [| |apply (sr_g _ _ H k)]; [tauto|auto].
Qed.

Lemma sr_same s t l g : SR s t -> (forall k, k <> g -> sel_find l k = sel_find (s_sel s) k) ->
  grel (in_group (base t) g) (off t g) (sel_find l g) -> SR (mkS (s_w s) l) t.
Proof.
  intros H K G. constructor; [apply (sr_w _ _ H)|]. cbn [s_sel]. intros k.
  destruct (Nat.eq_dec k g) as [->|X]; [exact G|]. rewrite K by auto. apply (sr_g _ _ H k).
Qed.

Lemma sstep_sim s t o : SR s t -> sop_ok cs o ->
  (exists s' x, s_step np cs s o = Some (s', x) /\
     (sdirty t o x \/ exists t', sspec_step np cs t o x t' /\ (~ sdirty t o x -> SR s' t'))) \/
  (s_step np cs s o = None /\ unserved t o).
Proof.
  intros H O. destruct o as [o|gh mh|gh mh|x hash|].
  - left. destruct O as [O NA]. destruct (call_sim s t o H O NA) as (w & x & b & E & Sp & W).
    do 2 eexists. split.
    { cbn [s_step]. destruct o; try (rewrite E; reflexivity). exfalso. apply NA. exact I. }
    right. eexists. split; [apply ss_call; eauto|]. exact W.
  - left. destruct O as (g & m & -> & -> & Lg & Lm). cbn [s_step]. rewrite hdl_grp, hdl_mbr by auto.
    pose proof (grel_activate _ g m _ _ (sr_g _ _ H g)) as A. destruct (sel_activate (s_sel s) g m) as [l c].
    destruct A as [K [(A1 & -> & A3)|[(A1 & A2 & -> & A3)|(A1 & A2 & -> & A3)]]];
      do 2 eexists; (split; [reflexivity|]); right; eexists.
    + split; [apply ss_act_out; auto|]. intros _. apply (sr_same _ _ _ g); auto.
    + split; [apply ss_act; auto|]. intros _. eapply (sr_upd _ _ _ g); eauto; cbv beta.
      * intros k X m'. split; [intros Q; split; auto; intros [? ?]; congruence|tauto].
      * eapply grel_ext; [| |exact A3]; [tauto|]. intros m'. split.
        -- intros [Q1 Q2]. split; [exact Q1|]. intros [_ Q]. apply Q2, Q.
        -- intros [Q1 Q2]. split; [exact Q1|]. intros Q. apply Q2. split; [reflexivity|exact Q].
    + split; [apply ss_act_on; auto|]. intros _. apply (sr_same _ _ _ g); auto.
  - left. destruct O as (g & m & -> & -> & Lg & Lm). cbn [s_step]. rewrite hdl_grp, hdl_mbr by auto.
    pose proof (grel_deactivate _ g m _ _ (sr_g _ _ H g)) as A. destruct (sel_deactivate (s_sel s) g m) as [l c].
    destruct A as [K [(A1 & -> & A3)|[(A1 & A2 & -> & A3)|(A1 & A2 & -> & A3)]]];
      do 2 eexists; (split; [reflexivity|]); right; eexists.
    + split; [apply ss_deact_out; auto|]. intros _. apply (sr_same _ _ _ g); auto.
    + split; [apply ss_deact; auto|]. intros _. eapply (sr_upd _ _ _ g); eauto; cbv beta.
      * intros k X m'. split; [auto|intros [Q|[? ?]]; auto; congruence].
      * eapply grel_ext; [| |exact A3]; [tauto|]. intros m'. split; (intros [Q|Q]; [auto|right]); tauto.
    + split; [apply ss_deact_off; auto|]. intros _. apply (sr_same _ _ _ g); auto.
  - cbn [s_step]. destruct (lookup_sim s t x hash H) as [(a & E & Q)|[E Q]]; rewrite E.
    + left. do 2 eexists. split; [reflexivity|]. right. eexists. split; [apply ss_lookup; eauto|auto].
    + right. auto.
  - left. do 2 eexists. split; [reflexivity|]. destruct (sdirty_dec s t SInstall SInstalled H) as [D|D]; [auto|right].
    exists t. assert (NG : forall g m, ~ in_group (base t) g m) by (intros g m Q; apply D; cbn; eauto).
    split; [apply ss_install; auto|]. intros _. constructor; [apply (sr_w _ _ H)|]. cbn. intros g m.
    split; auto. intros Q. apply (NG g m). eapply off_in; eauto.
Qed.

Lemma srun_sim ops : forall s t, SR s t -> Forall (sop_ok cs) ops ->
  exists r s' outs, s_run np cs s ops = (s', outs) /\ sspec_run np cs t ops outs r /\
    match r with Some t' => SR s' t' | None => True end.
Proof.
  induction ops as [|o ops IH]; intros s t H F; cbn [s_run].
  - exists (Some t), s, []. split; [auto|]. split; [constructor|auto].
  - inversion F as [|? ? O F']; subst. destruct (sstep_sim s t o H O) as [(s1 & x & E & Q)|[E U]]; rewrite E.
    + destruct (sdirty_dec s t o x H) as [D|D].
      * destruct (s_run np cs s1 ops) as [s2 xs]. exists None. do 2 eexists. split; [reflexivity|].
        split; [apply sr_dirty; auto|auto].
      * destruct Q as [Q|(t1 & Sp & W)]; [tauto|].
        destruct (IH s1 t1 (W D) F') as (r & s2 & xs & E2 & S2 & R2). rewrite E2.
        exists r. do 2 eexists. split; [reflexivity|]. split; [eapply sr_cons; eauto|auto].
    + exists None, s, []. split; [auto|]. split; [apply sr_dead; auto|auto].
Qed.
End World.
