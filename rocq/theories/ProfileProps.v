(** C11, C12: action profiles shared by indirect match tables. *)
From Coq Require Import List Arith NArith ZArith Bool Lia Sorted.
From Verif Require Import Base Bits EntryListModel MatchUnitModel MatchUnitSpec MatchUnitConseq
  TableModel TableSpec ProfileModel ProfileSpec ProfileProofs ProfileProofs2 ProfileProofs3 ProfileProofs4.
Import ListNotations.

(** Every call of every history of members, groups, entries, defaults and packets answers as the
    specification says, up to and including the first call after which the code's reference
    counts are off (a refused add, a modify refused because of its target, a bulk reset).  When
    there was no such call, every member or group that an entry, a default or a group designates
    exists, and every group is a set. *)
Theorem C11_history : forall np cs ops, cfg_ok cs -> Forall (pop_ok cs) ops ->
  exists r, pspec_run np cs (wst0 (length cs)) ops (snd (w_run np cs (w_new cs) ops)) r /\
    forall s, r = Some s ->
      (forall x, designated s x -> exists_target s x) /\
      (forall g l, g_of s g = Some l -> StronglySorted lt l).
Proof.
  intros np cs ops CO F.
  destruct (run_sim np cs CO ops _ _ (WR_new cs) F) as (r & w' & outs & E & Sp & W).
  exists r. rewrite E. split; [exact Sp|]. intros s ->. split.
  - intros x D. apply (wr_ref _ _ _ W). apply (designated_refs cs w'); auto.
  - apply (wr_sort _ _ _ W).
Qed.
Print Assumptions C11_history.

(** After a history without such calls, deleting a member (a group) succeeds exactly when nothing
    designates it any more. *)
Theorem C11_delete_iff_unused : forall np cs ops o, cfg_ok cs -> Forall (pop_ok cs) ops ->
  (exists m, o = PDelMember m) \/ (exists g, o = PDelGroup g) ->
  forall r, r = w_run np cs (w_new cs) (ops ++ [o]) ->
  (exists s x, pspec_run np cs (wst0 (length cs)) ops (firstn (length ops) (snd r)) (Some s) /\
     snd r = firstn (length ops) (snd r) ++ [x] /\
     match o with
     | PDelMember m => (x = POk <-> m_of s m <> None /\ ~ designated s (Mbr m)) /\
                       (x = PErr PMbrUsed <-> m_of s m <> None /\ designated s (Mbr m))
     | PDelGroup g => (x = POk <-> g_of s g <> None /\ ~ designated s (Grp g)) /\
                      (x = PErr PGrpUsed <-> g_of s g <> None /\ designated s (Grp g))
     | _ => True
     end) \/
  pspec_run np cs (wst0 (length cs)) ops (firstn (length ops) (snd r)) None \/
  pspec_run np cs (wst0 (length cs)) (ops ++ [o]) (snd r) None.
Proof.
  intros np cs ops o CO F HO r ->.
  destruct (run_sim np cs CO ops _ _ (WR_new cs) F) as (r & w' & outs & E & Sp & W).
  assert (G : forall ops w w' outs, w_run np cs w ops = (w', outs) ->
    (length outs = length ops /\ snd (w_run np cs w (ops ++ [o])) =
       outs ++ match w_step np cs w' o with Some (_, x) => [x] | None => [] end) \/
    length outs < length ops).
  { clear. induction ops as [|a ops IH]; intros w w' outs E; cbn in *.
    - injection E as <- <-. left. split; auto. destruct (w_step np cs w o) as [[? ?]|]; auto.
    - destruct (w_step np cs w a) as [[w1 x]|]; [|injection E as <- <-; cbn; right; lia].
      destruct (w_run np cs w1 ops) as [w2 xs] eqn:E2. injection E as <- <-.
      destruct (IH _ _ _ E2) as [[L Q]|L]; cbn; [|right; lia]. left. split; [lia|].
      destruct (w_run np cs w1 (ops ++ [o])) as [w3 ys]. cbn in *. congruence. }
  assert (LN : forall s ops outs r, pspec_run np cs s ops outs (Some r) -> length outs = length ops).
  { clear. intros s ops outs r H. remember (Some r) as q. induction H; cbn; auto; discriminate. }
  destruct r as [s|].
  - left. destruct (G _ _ _ _ E) as [[L Q]|L]; [|apply LN in Sp; lia]. rewrite Q.
    rewrite <- L, firstn_app, firstn_all, Nat.sub_diag, firstn_O, app_nil_r.
    assert (PO : pop_ok cs o) by (destruct HO as [(m & ->)|(g & ->)]; exact I).
    destruct (step_sim np cs CO w' s o W PO) as (w2 & x & s2 & ES & SS & _). rewrite ES. exists s, x. split; auto. split; auto.
    destruct HO as [(m & ->)|(g & ->)]; inversion SS; subst;
      (split; split; [intros X; try discriminate; auto|intros (X1 & X2); auto; congruence|
                      intros X; try discriminate; auto|intros (X1 & X2); auto; congruence]).
  - destruct (G _ _ _ _ E) as [[L Q]|L].
    + right. left. rewrite Q, <- L, firstn_app, firstn_all, Nat.sub_diag, firstn_O, app_nil_r. exact Sp.
    + right. right.
      assert (X : forall s ops outs, pspec_run np cs s ops outs None -> forall w, snd (w_run np cs w ops) = outs ->
                  pspec_run np cs s (ops ++ [o]) (snd (w_run np cs w (ops ++ [o]))) None).
      { clear. intros s ops outs H. remember None as q. induction H as [|s a x s' os xs q D S H IH|s a x s' os xs D S]; intros w EQ; [discriminate| |];
          cbn in *; destruct (w_step np cs w a) as [[w1 y]|]; try discriminate;
          destruct (w_run np cs w1 os) as [w2 ys] eqn:E2; cbn in EQ; injection EQ as -> <-.
        - specialize (IH Heqq w1). rewrite E2 in IH. specialize (IH eq_refl).
          destruct (w_run np cs w1 (os ++ [o])) as [w3 zs]. cbn in *. eapply pr_cons; eauto.
        - destruct (w_run np cs w1 (os ++ [o])) as [w3 zs]. cbn. eapply pr_dirty; eauto. }
      apply (X _ _ _ Sp). rewrite E. reflexivity.
Qed.
Print Assumptions C11_delete_iff_unused.

(** ** What fails without the restriction *)
(** Every call follows the specification, whatever it returned. *)
Inductive follows (np : nat -> nat) (cs : list itcfg) : wst -> list pop -> list pout -> Prop :=
| fo_nil : forall s, follows np cs s [] []
| fo_cons : forall s o x s' os xs, pspec_step np cs s o x s' -> follows np cs s' os xs ->
    follows np cs s (o :: os) (x :: xs).

Definition ex_c : itcfg := mkIC KExact 1 4 false
  (mkCfg (fun _ => 1) (fun a => Some (Some (10 + a))) None (Some (Some 99)) (mkA None [] (Some 99)) false None false false).
Definition ex_np : nat -> nat := fun _ => 1.
Definition ex_key (v : N) : mkey := mkKey [v] [] 0 0 [].
Definition ex_run (ops : list pop) : list pout := snd (w_run ex_np [ex_c; ex_c] (w_new [ex_c; ex_c]) ops).

Lemma ex_cfg_ok : cfg_ok [ex_c; ex_c].
Proof.
  split; [|cbn; lia].
  assert (H : (N.of_nat (ic_size ex_c) <= 2 ^ 24)%N /\
    (forall fn, node_on_hit (ic_cfg ex_c) fn <> None /\ node_on_miss (ic_cfg ex_c) fn <> None)).
  { split; [cbn; lia|]. intros fn. cbn. split; discriminate. }
  repeat constructor; apply H.
Qed.
Lemma ex_key_ok v : (v < 256)%N -> key_ok KExact 1 (ex_key v).
Proof. intros H. split; cbn; [constructor; auto|auto]. Qed.

Definition follows_always : Prop := forall np cs ops, cfg_ok cs -> Forall (pop_ok cs) ops ->
  follows np cs (wst0 (length cs)) ops (snd (w_run np cs (w_new cs) ops)).

Ltac fo := match goal with H : follows _ _ _ (_ :: _) (_ :: _) |- _ => inversion H; clear H; subst end.
Ltac fs := match goal with H : pspec_step _ _ _ _ _ _ |- _ => inversion H; clear H; subst end.
Ltac pops := repeat constructor; cbn; try lia; try (exists ex_c; split; [reflexivity|]); auto.

(** An add refused by the key (or because the table is full, or the key is present) leaves a
    reference behind: the member can never be deleted. *)
Definition leak_ops : list pop :=
  [PAddMember 3 [42%N]; IAdd 0 0 None (Mbr 0); PDelMember 0].
Theorem C11_refused_add_leaks_refuted : ~ follows_always.
Proof.
  intros H. specialize (H ex_np [ex_c; ex_c] leak_ops ex_cfg_ok).
  assert (P : Forall (pop_ok [ex_c; ex_c]) leak_ops).
  { unfold leak_ops. pops. intros; discriminate. }
  specialize (H P). replace (snd (w_run _ _ _ _)) with [PNewMbr 0; PErr PBadKey; PErr PMbrUsed] in H by (vm_compute; reflexivity).
  unfold leak_ops in H. fo. fo. fo. fs. fs; [match goal with B : bad_target _ _ _ |- _ => inversion B end|]. fs.
  match goal with D : designated _ _ |- _ => inversion D as [j t d i e A B C|j t A|m' g l A B C]; subst end; cbn in *.
  - destruct j as [|[|[|j]]]; cbn in A; try discriminate; injection A as <- <-; discriminate.
  - destruct j as [|[|[|j]]]; cbn in A; try discriminate.
  - discriminate.
Qed.
Print Assumptions C11_refused_add_leaks_refuted.

(** A modify refused because of its target drops the reference of the entry it leaves in place:
    the member can then be deleted although the entry still designates it. *)
Definition steal_ops : list pop :=
  [PAddMember 3 [42%N]; IAdd 0 0 (Some (ex_key 7)) (Mbr 0); IMod 0 0 (Mbr 9); PDelMember 0].
Theorem C11_refused_modify_frees_refuted : ~ follows_always.
Proof.
  intros H. specialize (H ex_np [ex_c; ex_c] steal_ops ex_cfg_ok).
  assert (P : Forall (pop_ok [ex_c; ex_c]) steal_ops).
  { unfold steal_ops. pops. intros k' Q; injection Q as <-. apply ex_key_ok; lia. }
  specialize (H P). replace (snd (w_run _ _ _ _)) with [PNewMbr 0; PHandle 0; PErr PInvalidMbr; POk] in H by (vm_compute; reflexivity).
  unfold steal_ops in H. fo. fo. fo. fo. fs. fs. fs. fs.
  match goal with A : mspec_step _ _ _ _ (MAdd _ _ _) _ _ |- _ => inversion A; clear A; subst end.
  match goal with A : ~ designated _ _ |- _ => apply A end.
  match goal with |- designated (set_t ?s0 0 (?t0, ?d0)) _ =>
    eapply (by_entry _ _ 0 t0 d0 i0); [auto|cbn; unfold set_slot; rewrite Nat.eqb_refl; reflexivity|reflexivity] end.
Qed.
Print Assumptions C11_refused_modify_frees_refuted.

(** ... and the next packet that hits the entry kills the process. *)
Example steal_kills : ex_run (steal_ops ++ [IApply 0 0 64 [7%N] None]) = [PNewMbr 0; PHandle 0; PErr PInvalidMbr; POk].
Proof. vm_compute. reflexivity. Qed.

(** Clearing a table does not release what its entries designated. *)
Definition clear_ops : list pop :=
  [PAddMember 3 [42%N]; IAdd 0 0 (Some (ex_key 7)) (Mbr 0); IClear 0 true; PDelMember 0].
Theorem C11_clear_leaks_refuted : ~ follows_always.
Proof.
  intros H. specialize (H ex_np [ex_c; ex_c] clear_ops ex_cfg_ok).
  assert (P : Forall (pop_ok [ex_c; ex_c]) clear_ops).
  { unfold clear_ops. pops. intros k' Q; injection Q as <-. apply ex_key_ok; lia. }
  specialize (H P). replace (snd (w_run _ _ _ _)) with [PNewMbr 0; PHandle 0; POk; PErr PMbrUsed] in H by (vm_compute; reflexivity).
  unfold clear_ops in H. fo. fo. fo. fo. fs. fs. fs. fs. cbn in *.
  match goal with A : Some (_, _) = Some (_, _) |- _ => injection A as <- <- end.
  match goal with D : designated _ _ |- _ => inversion D as [j1 t1 d1 i1 e1 A B C|j1 t1 A|m' g l A B C]; subst end; cbn in *.
  - destruct j1 as [|[|[|j1]]]; cbn in A; try discriminate; injection A as <- <-; discriminate.
  - destruct j1 as [|[|[|j1]]]; cbn in A; try discriminate.
  - discriminate.
Qed.
Print Assumptions C11_clear_leaks_refuted.

(** Resetting a profile that had a group: the next group creation kills the process (the group
    handles are not cleared with the groups). *)
Theorem C11_profile_reset_refuted : ~ follows_always.
Proof.
  intros H. specialize (H ex_np [ex_c; ex_c] [PAddGroup; PReset; PAddGroup] ex_cfg_ok).
  assert (P : Forall (pop_ok [ex_c; ex_c]) [PAddGroup; PReset; PAddGroup]) by pops.
  specialize (H P). replace (snd (w_run _ _ _ _)) with [PNewGrp 0; POk] in H by (vm_compute; reflexivity).
  fo. fo. match goal with A : follows _ _ _ _ [] |- _ => inversion A end.
Qed.
Print Assumptions C11_profile_reset_refuted.

(** ** C12: selection from a group *)
(** A packet served through a group gets the current action of a current member. *)
Theorem C12_current_member : forall s hash g a, serves s hash (Grp g) a ->
  exists l m, g_of s g = Some l /\ In m l /\ m_of s m = Some a.
Proof.
  intros s hash g a H. inversion H; subst. exists l, (pick l hash). split; auto. split; auto. apply pick_In; auto.
Qed.
Print Assumptions C12_current_member.

Lemma pick_small l h : (h < 2 ^ 32)%N -> pick l (Some h) = nth (N.to_nat (h mod N.of_nat (length l))) l 0.
Proof. intros H. unfold pick. rewrite (N.mod_small h (2 ^ 32)) by auto. reflexivity. Qed.

(** The choice depends on nothing but the hash and the set of members. *)
Lemma sorted_unique l : forall l', StronglySorted lt l -> StronglySorted lt l' -> (forall x, In x l <-> In x l') -> l = l'.
Proof.
  induction l as [|a l IH]; intros [|b l'] S S' E.
  - auto.
  - exfalso. apply (proj2 (E b)). left; auto.
  - exfalso. apply (proj1 (E a)). left; auto.
  - inversion S as [|? ? S1 F]; inversion S' as [|? ? S1' F']; subst.
    assert (a = b).
    { destruct (proj1 (E a) (or_introl eq_refl)) as [|A]; auto. destruct (proj2 (E b) (or_introl eq_refl)) as [|B]; auto.
      apply (proj1 (Forall_forall _ _) F') in A. apply (proj1 (Forall_forall _ _) F) in B. lia. }
    subst b. f_equal. apply IH; auto. intros x. specialize (E x). split; intros I.
    + destruct (proj1 E (or_intror I)) as [->|]; auto. apply (proj1 (Forall_forall _ _) F) in I. lia.
    + destruct (proj2 E (or_intror I)) as [->|]; auto. apply (proj1 (Forall_forall _ _) F') in I. lia.
Qed.
Theorem C12_only_hash_and_members : forall l l' hash,
  StronglySorted lt l -> StronglySorted lt l' -> (forall x, In x l <-> In x l') -> pick l hash = pick l' hash.
Proof. intros l l' hash S S' E. rewrite (sorted_unique l l' S S' E). reflexivity. Qed.
Print Assumptions C12_only_hash_and_members.

(** Over as many consecutive 32-bit hash values as the group has members, every member is chosen
    exactly once; so every member is reachable, and a full period is shared equally. *)
Theorem C12_fair : forall l h0 m, StronglySorted lt l -> In m l ->
  (h0 + N.of_nat (length l) <= 2 ^ 32)%N ->
  exists k, k < length l /\ pick l (Some (h0 + N.of_nat k)%N) = m /\
    forall k', k' < length l -> pick l (Some (h0 + N.of_nat k')%N) = m -> k' = k.
Proof.
  intros l h0 m S I B. apply sorted_nodup in S. destruct (In_nth l m 0 I) as (i & Li & Ei).
  set (n := N.of_nat (length l)) in *. assert (Hn : (0 < n)%N) by (unfold n; destruct l; [destruct I|cbn [length]; lia]).
  pose proof (N.div_mod h0 n ltac:(lia)) as DM. pose proof (N.mod_lt h0 n ltac:(lia)) as ML.
  set (r := (h0 mod n)%N) in *. set (q := (h0 / n)%N) in *.
  assert (P : forall k, k < length l -> pick l (Some (h0 + N.of_nat k)%N) =
              nth (N.to_nat (if (r + N.of_nat k <? n)%N then r + N.of_nat k else r + N.of_nat k - n)) l 0).
  { intros k Hk. rewrite pick_small by lia. f_equal. f_equal. fold n.
    destruct (N.ltb_spec (r + N.of_nat k) n).
    - symmetry. apply (N.mod_unique _ _ q); lia.
    - symmetry. apply (N.mod_unique _ _ (q + 1)); lia. }
  exists (N.to_nat (if (r <=? N.of_nat i)%N then N.of_nat i - r else N.of_nat i + n - r)).
  split; [destruct (N.leb_spec r (N.of_nat i)); lia|]. split.
  - rewrite P by (destruct (N.leb_spec r (N.of_nat i)); lia). rewrite <- Ei. f_equal.
    destruct (N.leb_spec r (N.of_nat i)).
    + destruct (N.ltb_spec (r + N.of_nat (N.to_nat (N.of_nat i - r))) n); lia.
    + destruct (N.ltb_spec (r + N.of_nat (N.to_nat (N.of_nat i + n - r))) n); lia.
  - intros k' Hk' E. rewrite P in E by auto. rewrite <- Ei in E.
    apply (proj1 (NoDup_nth l 0) S) in E; auto.
    + destruct (N.leb_spec r (N.of_nat i)); destruct (N.ltb_spec (r + N.of_nat k') n); lia.
    + destruct (N.ltb_spec (r + N.of_nat k') n); lia.
Qed.
Print Assumptions C12_fair.

(** Connection to the tables: after any history without the calls listed in [dirty], a packet
    that hits an entry designating a non-empty group executes the current action of the member
    picked among the current members of that group. *)
Theorem C12_table_through_group : forall np cs ops, cfg_ok cs -> Forall (pop_ok cs) ops ->
  exists r, pspec_run np cs (wst0 (length cs)) ops (snd (w_run np cs (w_new cs) ops)) r /\
  forall s, r = Some s -> forall j ts len key hash c t d i e g l,
    nth_error cs j = Some c -> bytes_ok key -> length key = ic_nb c ->
    nth_error (tabs s) j = Some (t, d) ->
    lookup_answer (ic_kd c) (ic_nb c) t key (Some (i, e)) -> s_val e = Grp g ->
    g_of s g = Some l -> l <> [] ->
    exists fn data nn, m_of s (pick l hash) = Some (fn, data) /\ In (pick l hash) l /\
      node_on_hit (ic_cfg c) fn = Some nn /\
      snd (w_run np cs (w_new cs) (ops ++ [IApply j ts len key hash])) =
        snd (w_run np cs (w_new cs) ops) ++ [PApplied (Some (N.of_nat i)) (Some fn) data nn].
Proof.
  intros np cs ops CO F.
  destruct (run_sim np cs CO ops _ _ (WR_new cs) F) as (r & w' & outs & E & Sp & W).
  exists r. rewrite E. split; [exact Sp|]. intros s -> j ts len key hash c t d i e g l Ec KB KL Et LA V G NE.
  assert (PO : pop_ok cs (IApply j ts len key hash)) by (exists c; auto).
  destruct (step_sim np cs CO w' s _ W PO) as (w2 & x & s2 & ES & SS & _).
  assert (Q : snd (w_run np cs (w_new cs) (ops ++ [IApply j ts len key hash])) = outs ++ [x]).
  { assert (LN : length outs = length ops).
    { clear - Sp. remember (Some s) as q. induction Sp; cbn; auto; discriminate. }
    clear - E ES LN. revert outs E LN. generalize (w_new cs). induction ops as [|a ops IH]; intros w outs E LN; cbn in *.
    - injection E as <- <-. rewrite ES. reflexivity.
    - destruct (w_step np cs w a) as [[w1 y]|]; [|injection E as <- <-; cbn in LN; lia].
      destruct (w_run np cs w1 ops) as [w3 ys] eqn:E2. injection E as <- <-. cbn in LN.
      specialize (IH w1 ys E2 ltac:(lia)). destruct (w_run np cs w1 (ops ++ [IApply j ts len key hash])) as [w4 zs]. cbn in *. congruence. }
  cbn [snd]. rewrite Q.
  assert (MT : forall c' t' d', nth_error cs j = Some c' -> nth_error (tabs s) j = Some (t', d') ->
             lookup_answer (ic_kd c') (ic_nb c') t' key None -> False).
  { intros c' t' d' A B C. assert (c' = c) by congruence. assert (t' = t) by congruence. subst.
    destruct LA as (L1 & L2 & _). apply (C _ _ L1 L2). }
  assert (IV : inv (ic_kd c) (ic_nb c) (ic_size c) t).
  { destruct (nth_ex (w_tabs w') j _ (wr_lenw _ _ _ W)) as (t0 & Et0). { apply nth_error_Some. congruence. }
    apply (wr_tab _ _ _ W _ _ _ _ Ec Et0 Et). }
  assert (UN : forall c' t' d' i' e', nth_error cs j = Some c' -> nth_error (tabs s) j = Some (t', d') ->
             lookup_answer (ic_kd c') (ic_nb c') t' key (Some (i', e')) -> c' = c /\ t' = t /\ i' = i /\ e' = e).
  { intros c' t' d' i' e' A B C. assert (c' = c) by congruence. assert (t' = t) by congruence. subst. split; auto. split; auto.
    assert (D : Some (i', e') = Some (i, e)) by (eapply lookup_det; eauto). split; congruence. }
  inversion SS; subst; try (exfalso; eapply MT; eauto; fail).
  - match goal with A : lookup_answer _ _ _ _ (Some _) |- _ => destruct (UN _ _ _ _ _ ltac:(eassumption) ltac:(eassumption) A) as (-> & -> & -> & ->) end.
    match goal with A : serves _ _ _ _ |- _ => rewrite V in A; inversion A; subst end.
    assert (l0 = l) by congruence. subst l0. exists fn, data, nn. split; auto. split; [apply pick_In; auto|auto].
  - match goal with A : lookup_answer _ _ _ _ (Some _) |- _ => destruct (UN _ _ _ _ _ ltac:(eassumption) ltac:(eassumption) A) as (-> & -> & -> & ->) end.
    congruence.
Qed.
Print Assumptions C12_table_through_group.

Definition ex_ops : list pop :=
  [PAddMember 3 [41%N]; PAddMember 4 [42%N]; PAddMember 5 [43%N]; PAddGroup; PJoin 2 0; PJoin 0 0;
   IAdd 0 0 (Some (ex_key 7)) (Grp 0); IAdd 1 0 (Some (ex_key 8)) (Mbr 1); ISetDefault 1 (Grp 0);
   IApply 0 0 64 [7%N] (Some 0%N); IApply 0 0 64 [7%N] (Some 1%N); IApply 0 0 64 [9%N] None;
   IApply 1 0 64 [8%N] None; IApply 1 0 64 [9%N] (Some 4294967295%N);
   PDelMember 2; PDelGroup 0; PModMember 2 9 [1%N]; IApply 0 0 64 [7%N] (Some 1%N);
   IMod 0 0 (Mbr 1); PDelGroup 0; IResetDefault 1; PDelGroup 0; PDelMember 2; PDelMember 1; PGetMembers].
Example ex_ops_outs : ex_run ex_ops =
  [PNewMbr 0; PNewMbr 1; PNewMbr 2; PNewGrp 0; POk; POk; PHandle 0; PHandle 0; POk;
   PApplied (Some 0%N) (Some 3) [41%N] (Some 13); PApplied (Some 0%N) (Some 5) [43%N] (Some 15);
   PApplied None None [] (Some 99);
   PApplied (Some 0%N) (Some 4) [42%N] (Some 14); PApplied None (Some 5) [43%N] (Some 99);
   PErr PMbrUsed; PErr PGrpUsed; POk; PApplied (Some 0%N) (Some 9) [1%N] (Some 19);
   POk; PErr PGrpUsed; POk; POk; POk; PErr PMbrUsed; PMembers [(0, (3, [41%N])); (1, (4, [42%N]))]].
Proof. vm_compute. reflexivity. Qed.
Example ex_ops_ok : cfg_ok [ex_c; ex_c] /\ Forall (pop_ok [ex_c; ex_c]) ex_ops.
Proof.
  split; [apply ex_cfg_ok|]. unfold ex_ops. pops; try (intros k' Q; injection Q as <-; apply ex_key_ok; lia);
  try (split; [repeat constructor; lia|auto]).
Qed.
