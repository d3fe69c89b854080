(** C67: PI group selection.  Activating and deactivating the members of a group. *)
From Coq Require Import List Arith NArith Bool Lia Sorted.
From Verif Require Import Base HandleMgrModel MatchUnitModel TableModel ProfileModel ProfileSpec ProfileProofs
  ProfileProofs2 ProfileProofs3 ProfileProofs4 ProfileProps PiSelModel PiSelSpec PiSelProofs.
Import ListNotations.

Lemma pick_reach l m : NoDup l -> In m l -> (N.of_nat (length l) <= 2 ^ 24)%N ->
  exists h, (h < 2 ^ 32)%N /\ pick l (Some h) = m.
Proof.
  intros ND I L. destruct (In_nth l m 0 I) as (i & Hi & E). exists (N.of_nat i).
  assert (S1 : (N.of_nat i < 2 ^ 32)%N) by lia. split; [auto|].
  unfold pick. rewrite (N.mod_small _ _ S1), N.mod_small by lia. rewrite Nat2N.id. exact E.
Qed.

(** Every call of every history of profile and table calls, activations, deactivations and packets
    answers as the specification says, up to the first call after which nothing is claimed; the
    process dies only at a packet that nothing can serve.  When the whole history was served, the
    members that are off are members of their group; every member of a group that is on serves
    the packets of some hash; and only members that are on serve packets. *)
Theorem C67_history : forall np cs ops, cfg_ok cs -> Forall (sop_ok cs) ops ->
  let s := fst (s_run np cs (s_new cs) ops) in
  exists r, sspec_run np cs (sst0 cs) ops (snd (s_run np cs (s_new cs) ops)) r /\
    forall t, r = Some t ->
      (forall g m, off t g m -> in_group (base t) g m) /\
      (forall g m, in_group (base t) g m -> ~ off t g m ->
         exists h a, (h < 2 ^ 32)%N /\ m_of (base t) m = Some a /\
           s_step np cs s (SLookup (Grp g) (Some h)) = Some (s, SFound a)) /\
      (forall g hash s' a, s_step np cs s (SLookup (Grp g) hash) = Some (s', SFound a) ->
         exists m, in_group (base t) g m /\ ~ off t g m /\ m_of (base t) m = Some a).
Proof.
  intros np cs ops CO F.
  destruct (srun_sim np cs CO ops _ _ (SR_new cs) F) as (r & s' & outs & E & Sp & W).
  rewrite E. cbn [fst snd]. exists r. split; [exact Sp|]. intros t ->.
  split; [intros g m; apply (off_in np cs _ _ g m W)|]. split.
  - intros g m I O. pose proof (sr_g _ _ _ W g) as G. destruct (sel_find (s_sel s') g) as [i|] eqn:Es; cbn [grel] in G.
    2:{ destruct (G m); tauto. }
    destruct G as (A & B & C & D & Q & U).
    assert (Im : In m (gi_act i)) by (destruct (mem_dec m (gi_act i)) as [Y|Y]; auto; exfalso; apply O, U; auto).
    assert (ND : NoDup (gi_act i)) by (apply sorted_nodup; auto).
    assert (LE : length (gi_act i) <= gmax).
    { rewrite <- (seq_length gmax 0). apply NoDup_incl_length; auto. intros x Ix. apply in_seq.
      destruct (Q _ Ix) as (l & Eg & Il).
      pose proof (wr_mlt _ _ _ (sr_w _ _ _ W) x (group_members_live cs _ _ (sr_w _ _ _ W) _ _ _ Eg Il)). lia. }
    destruct (pick_reach (gi_act i) m ND Im) as (h & Hh & Ph).
    { pose proof gmax_N as GN. unfold index_limit in GN. change (2 ^ 24)%N with 16777216%N. lia. }
    assert (NE : gi_act i <> []) by (destruct (gi_act i); [destruct Im|discriminate]).
    destruct (lookup_sim np cs s' t (Grp g) (Some h) W) as [(a & El & Sv)|[El Un]].
    + exists h, a. split; [auto|]. cbn [s_step]. rewrite El. split; [|auto].
      inversion Sv as [|? l ? Gn [AL1 AL2] NL Em]; subst.
      assert (SAME : l = gi_act i).
      { apply sorted_unique; auto. intros x. rewrite AL2. split.
        - intros [X1 X2]. destruct (mem_dec x (gi_act i)) as [Y|Y]; auto. exfalso. apply X2, U. auto.
        - intros X. split; [auto|]. intros X2. apply U in X2. tauto. }
      rewrite SAME in Em. exact Em.
    + exfalso. cbn [unserved] in Un. destruct Un as [Un|Un].
      * destruct I as (l & Eg & _). congruence.
      * apply O, Un, I.
  - intros g hash s2 a Es. cbn [s_step] in Es.
    destruct (lookup_sim np cs s' t (Grp g) hash W) as [(b & El & Sv)|[El Un]]; rewrite El in Es; [|discriminate].
    injection Es as <- <-. inversion Sv as [|? l ? Gn [AL1 AL2] NL Em]; subst.
    exists (pick l hash). destruct (proj1 (AL2 _) (pick_In l hash NL)). auto.
Qed.
Print Assumptions C67_history.

(** Resetting the profile forgets every group: no member can be activated or deactivated. *)
Theorem C67_reset : forall np cs s g m, exists s', s_step np cs s (SCall PReset) = Some (s', SPout POk) /\
  s_step np cs s' (SActivate g m) = Some (s', SCode SNotIn) /\
  s_step np cs s' (SDeactivate g m) = Some (s', SCode SNotIn).
Proof. intros. eexists. split; [reflexivity|]. split; reflexivity. Qed.
Print Assumptions C67_reset.

(** ** A concrete history *)
Definition ex_np (_ : nat) : nat := 0.
Definition ex_setup : list sop :=
  [SCall (PAddMember 7 []); SCall (PAddMember 8 []); SCall (PAddMember 9 []); SCall PAddGroup;
   SCall (PJoin 0 0); SCall (PJoin 1 0); SCall (PJoin 2 0)].
Lemma ex_cfg : cfg_ok [].
Proof. split; [constructor|reflexivity]. Qed.
Lemma ex_setup_ok : Forall (sop_ok []) ex_setup.
Proof. unfold ex_setup. repeat (constructor; [cbn; tauto|]). constructor. Qed.

Example ex_run : skipn 7 (snd (s_run ex_np [] (s_new []) (ex_setup ++
   [SLookup (Grp 0) (Some 1%N); SDeactivate (grp_handle 0) (mbr_handle 1);
    SLookup (Grp 0) (Some 0%N); SLookup (Grp 0) (Some 1%N); SLookup (Grp 0) (Some 2%N);
    SDeactivate (grp_handle 0) (mbr_handle 1); SCall (PLeave 1 0); SActivate (grp_handle 0) (mbr_handle 1);
    SCall (PJoin 1 0); SLookup (Grp 0) (Some 1%N)])))
  = [SFound (8, []); SCode SOk; SFound (7, []); SFound (9, []); SFound (7, []);
     SCode SErr; SPout POk; SCode SNotIn; SPout POk; SFound (8, [])].
Proof. vm_compute. reflexivity. Qed.

(** A packet for a group that has members but none of them on: the process divides by zero. *)
Theorem C67_none_on_refuted : ~ (forall np cs ops g hash, cfg_ok cs -> Forall (sop_ok cs) ops ->
  forall t, sspec_run np cs (sst0 cs) ops (snd (s_run np cs (s_new cs) ops)) (Some t) ->
  (exists m, in_group (base t) g m) ->
  s_step np cs (fst (s_run np cs (s_new cs) ops)) (SLookup (Grp g) hash) <> None).
Proof.
  intros H.
  set (ops := [SCall (PAddMember 7 []); SCall PAddGroup; SCall (PJoin 0 0);
               SDeactivate (grp_handle 0) (mbr_handle 0)]).
  assert (F : Forall (sop_ok []) ops).
  { unfold ops. constructor; [cbn; tauto|]. constructor; [cbn; tauto|]. constructor; [cbn; tauto|].
    constructor; [|constructor]. exists 0, 0. split; [auto|]. split; [auto|]. split; reflexivity. }
  destruct (C67_history ex_np [] ops ex_cfg F) as (r & Sp & T).
  assert (outsE : snd (s_run ex_np [] (s_new []) ops) =
    [SPout (PNewMbr 0); SPout (PNewGrp 0); SPout POk; SCode SOk]) by (vm_compute; reflexivity).
  destruct r as [t|].
  - apply (H ex_np [] ops 0 None ex_cfg F t Sp); [|vm_compute; reflexivity].
    rewrite outsE in Sp. unfold ops in Sp. clear T H.
    inversion Sp as [|? ? ? ? ? ? ? D1 S1 Sp1| |]; subst.
    inversion Sp1 as [|? ? ? ? ? ? ? D2 S2 Sp2| |]; subst.
    inversion Sp2 as [|? ? ? ? ? ? ? D3 S3 Sp3| |]; subst.
    inversion Sp3 as [|? ? ? ? ? ? ? D4 S4 Sp4| |]; subst.
    inversion Sp4; subst. clear Sp Sp1 Sp2 Sp3 Sp4 D1 D2 D3 D4 outsE F.
    assert (IG : in_group (base s'1) 0 0).
    { inversion S3 as [o x b NA P E1 E2 E3| | | | | | | |]; subst. cbn [base].
      inversion P; subst. exists l'. unfold set_g, upd. cbn [g_of]. split; [reflexivity|]. 
      match goal with Q : forall x, In x l' <-> _ |- _ => apply Q end. auto. }
    exists 0. inversion S4; subst; auto; cbn [base]; exact IG.
  - exfalso. rewrite outsE in Sp. unfold ops in Sp.
    repeat match goal with
    | X : sspec_run _ _ _ (_ :: _) _ None |- _ => inversion X; subst; clear X; try contradiction
    | X : sspec_run _ _ _ [] _ None |- _ => inversion X
    end.
Qed.
Print Assumptions C67_none_on_refuted.

(** A selector installed while a group has members does not know them: the next packet for the
    group kills the process. *)
Theorem C67_install_refuted : ~ (forall np cs ops x hash a s1, cfg_ok cs -> Forall (sop_ok cs) ops ->
  let s := fst (s_run np cs (s_new cs) ops) in
  s_step np cs s (SLookup x hash) = Some (s, SFound a) ->
  s_step np cs s SInstall = Some (s1, SInstalled) ->
  s_step np cs s1 (SLookup x hash) <> None).
Proof.
  intros H.
  eapply (H ex_np [] ex_setup (Grp 0) None); [apply ex_cfg|apply ex_setup_ok|vm_compute; reflexivity|
    vm_compute; reflexivity|vm_compute; reflexivity].
Qed.
Print Assumptions C67_install_refuted.

(** A member handle of more than 32 bits, which no member has, deactivates the member that has its
    low 32 bits. *)
Theorem C67_wide_handle_refuted : ~ (forall np cs ops g m s' c, cfg_ok cs -> Forall (sop_ok cs) ops ->
  (2 ^ 32 <= m)%N ->
  s_step np cs (fst (s_run np cs (s_new cs) ops)) (SDeactivate g m) = Some (s', SCode c) -> c = SNotIn).
Proof.
  intros H.
  assert (X : SOk = SNotIn).
  { eapply (H ex_np [] ex_setup (grp_handle 0) (2 ^ 32 + 1)%N); [apply ex_cfg|apply ex_setup_ok|discriminate|
      vm_compute; reflexivity]. }
  discriminate.
Qed.
Print Assumptions C67_wide_handle_refuted.
