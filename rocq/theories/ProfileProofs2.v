(** Proofs about action profiles: the profile alone, against members, groups and target counts. *)
From Coq Require Import List Arith NArith ZArith Bool Lia Sorted.
From Verif Require Import Base Bits HandleMgrModel HandleMgrSpec HandleMgrProofs EntryListModel
  MatchUnitModel MatchUnitSpec MatchUnitProofs MatchUnitConseq TableModel TableSpec ProfileModel
  ProfileSpec ProfileProofs.
Import ListNotations.

Definition some {A} (o : option A) : bool := match o with Some _ => true | None => false end.
Lemma some_true {A} (o : option A) : some o = true <-> o <> None.
Proof. destruct o; cbn; split; congruence. Qed.

Definition HR (h : hmgr) (n : nat) {A} (f : nat -> option A) : Prop :=
  exists a, R h a /\ n = length (live a) /\ forall i, In i (live a) <-> f i <> None.

Lemma HR_ext h n {A B} (f : nat -> option A) (g : nat -> option B) :
  HR h n f -> (forall i, f i <> None <-> g i <> None) -> HR h n g.
Proof. intros (a & H & N & L) E. exists a. split; auto. split; auto. intros i. rewrite L. apply E. Qed.

Lemma HR_valid h n {A} (f : nat -> option A) i : HR h n f -> hm_valid_handle h i = Some (some (f i)).
Proof.
  intros (a & H & _ & L). rewrite (valid_ok _ _ _ H). f_equal.
  pose proof (R_live _ _ H i) as Q. rewrite L, <- some_true in Q.
  destruct (wbit _ i), (some (f i)); auto; destruct Q as [Q1 Q2]; [symmetry; apply Q1|apply Q2]; auto.
Qed.

Lemma HR_get h n {A} (f : nat -> option A) v : HR h n f -> exists h' i, hm_get_handle h = Some (h', i) /\
  f i = None /\ (forall k, k < i -> f k <> None) /\ HR h' (S n) (upd f i (Some v)).
Proof.
  intros (a & H & N & L). destruct (get_ok _ _ H) as (h' & i & E & F & G & H').
  exists h', i. split; auto. split. { destruct (f i) eqn:X; auto. exfalso. apply F, L. congruence. }
  split. { intros k K. apply L. auto. }
  eexists. split; [exact H'|]. cbn [live length]. split; [lia|]. intros k. cbn [In]. unfold upd.
  destruct (Nat.eqb_spec k i) as [->|X]; [split; [congruence|auto]|]. rewrite L. split; [intros [->|]; congruence|auto].
Qed.

Lemma HR_rel h n {A} (f : nat -> option A) i : HR h n f -> f i <> None ->
  exists h', hm_release_handle h i = Some (h', true) /\ HR h' (n - 1) (upd f i None).
Proof.
  intros (a & H & N & L) Hi. destruct (rel_ok _ _ i H) as [(I & h' & E & H')|(I & _)]; [|exfalso; apply I, L; auto].
  exists h'. split; auto. eexists. split; [exact H'|]. cbn [live]. split.
  - rewrite N. unfold remove_h. clear - H I. pose proof (R_nodup _ _ H) as ND. clear H. induction (live a) as [|x l IH]; cbn; [destruct I|].
    inversion ND; subst. destruct (Nat.eq_dec i x) as [->|X].
    + rewrite notin_remove by auto. lia.
    + destruct I as [->|I]; [congruence|]. cbn. rewrite <- IH by auto. destruct l; [destruct I|cbn; lia].
  - intros k. unfold remove_h, upd. destruct (Nat.eqb_spec k i) as [->|X].
    + split; [intros Q; apply remove_In in Q; destruct Q|congruence].
    + rewrite <- L. split; [intros Q; apply in_remove in Q; tauto|intros Q; apply in_in_remove; auto].
Qed.

Lemma gmax_ex : {n : nat | N.of_nat n = index_limit}.
Proof. exists (N.to_nat index_limit). rewrite N2Nat.id. reflexivity. Qed.
Definition gmax : nat := proj1_sig gmax_ex.
Lemma gmax_N : N.of_nat gmax = index_limit. Proof. apply (proj2_sig gmax_ex). Qed.

Record PR (p : prof) (M : nat -> option (nat * list N)) (G : nat -> option (list nat)) (c : idx -> nat) : Prop := {
  pr_m : HR (p_mh p) (p_nm p) M;
  pr_g : HR (p_gh p) (p_ng p) G;
  pr_ml : length (p_mc p) = length (p_ents p);
  pr_gl : length (p_groups p) <= length (p_gc p);
  pr_e : forall m a, M m = Some a -> nth_error (p_ents p) m = Some a;
  pr_gr : forall g l, G g = Some l -> nth_error (p_groups p) g = Some l;
  pr_mc : forall m, M m <> None -> nth_error (p_mc p) m = Some (N.of_nat (c (Mbr m)));
  pr_gc : forall g, G g <> None -> nth_error (p_gc p) g = Some (N.of_nat (c (Grp g))) }.

Lemma PR_empty c : PR p_empty (fun _ => None) (fun _ => None) c.
Proof.
  constructor; cbn; auto; try congruence.
  - exists a_empty. split; [apply R_empty|]. split; auto. cbn. intros. split; [tauto|congruence].
  - exists a_empty. split; [apply R_empty|]. split; auto. cbn. intros. split; [tauto|congruence].
Qed.

Definition tgt (M : nat -> option (nat * list N)) (G : nat -> option (list nat)) (x : idx) : Prop :=
  match x with Mbr m => M m <> None | Grp g => G g <> None end.

Lemma PR_ext p M G c c' : PR p M G c -> (forall x, tgt M G x -> c x = c' x) -> PR p M G c'.
Proof.
  intros [A B C D E F H I] X. constructor; auto.
  - intros m Hm. rewrite <- (X (Mbr m)); auto.
  - intros m Hm. rewrite <- (X (Grp m)); auto.
Qed.

Lemma cnt_inc_ok l i (k : nat) : nth_error l i = Some (N.of_nat k) -> (N.of_nat (S k) < 2 ^ 32)%N ->
  cnt_inc l i = Some (list_set l i (N.of_nat (S k))).
Proof.
  intros E L. unfold cnt_inc. rewrite E. do 2 f_equal. rewrite N.mod_small; lia.
Qed.
Lemma cnt_dec_ok l i (k : nat) : nth_error l i = Some (N.of_nat (S k)) -> (N.of_nat (S k) < 2 ^ 32)%N ->
  cnt_dec l i = Some (list_set l i (N.of_nat k)).
Proof.
  intros E L. unfold cnt_dec. rewrite E. do 2 f_equal.
  replace (N.of_nat (S k) + (2 ^ 32 - 1))%N with (N.of_nat k + 1 * 2 ^ 32)%N by lia.
  rewrite N.mod_add by lia. apply N.mod_small. lia.
Qed.

Definition cset (c : idx -> nat) (x : idx) (n : nat) : idx -> nat := fun y => if idx_eqb y x then n else c y.
Lemma cset_eq c x n : cset c x n x = n. Proof. unfold cset. rewrite idx_eqb_refl. auto. Qed.
Lemma cset_neq c x n y : y <> x -> cset c x n y = c y.
Proof. intros H. unfold cset. destruct (idx_eqb y x) eqn:E; auto. apply idx_eqb_eq in E. congruence. Qed.

Lemma list_set_cnt l i v m k : nth_error l i <> None ->
  (m <> i -> nth_error l m = Some k) -> (m = i -> v = k) -> nth_error (list_set l i v) m = Some (k : N).
Proof.
  intros H A B. destruct (Nat.eq_dec m i) as [->|N].
  - rewrite nth_error_list_set_eq by (apply nth_error_Some; auto). rewrite B; auto.
  - rewrite nth_error_list_set_neq by auto. auto.
Qed.

Lemma PR_inc p M G c x : PR p M G c -> tgt M G x -> (N.of_nat (S (c x)) < 2 ^ 32)%N ->
  exists p', ref_inc p x = Some p' /\ PR p' M G (cset c x (S (c x))).
Proof.
  intros H T L. destruct x as [m|g]; cbn in T; unfold ref_inc.
  - pose proof (pr_mc _ _ _ _ H m T) as E. rewrite (cnt_inc_ok _ _ _ E L). eexists; split; [reflexivity|].
    destruct H as [A B C D F I J K]. constructor; cbn [p_mh p_gh p_ents p_mc p_gc p_groups p_nm p_ng with_counts]; auto.
    + rewrite list_set_length. auto.
    + intros m' Hm. apply list_set_cnt; [congruence| |].
      * intros N. rewrite cset_neq by congruence. auto.
      * intros ->. rewrite cset_eq. auto.
  - pose proof (pr_gc _ _ _ _ H g T) as E. rewrite (cnt_inc_ok _ _ _ E L). eexists; split; [reflexivity|].
    destruct H as [A B C D F I J K]. constructor; cbn [p_mh p_gh p_ents p_mc p_gc p_groups p_nm p_ng with_counts]; auto.
    + rewrite list_set_length. auto.
    + intros m' Hm. apply list_set_cnt; [congruence| |].
      * intros N. rewrite cset_neq by congruence. auto.
      * intros ->. rewrite cset_eq. auto.
Qed.

Lemma PR_dec p M G c x k : PR p M G c -> tgt M G x -> c x = S k -> (N.of_nat (S k) < 2 ^ 32)%N ->
  exists p', ref_dec p x = Some p' /\ PR p' M G (cset c x k).
Proof.
  intros H T X L. destruct x as [m|g]; cbn in T; unfold ref_dec.
  - pose proof (pr_mc _ _ _ _ H m T) as E. rewrite X in E. rewrite (cnt_dec_ok _ _ _ E L). eexists; split; [reflexivity|].
    destruct H as [A B C D F I J K]. constructor; cbn [p_mh p_gh p_ents p_mc p_gc p_groups p_nm p_ng with_counts]; auto.
    + rewrite list_set_length. auto.
    + intros m' Hm. apply list_set_cnt; [congruence| |].
      * intros N. rewrite cset_neq by congruence. auto.
      * intros ->. rewrite cset_eq. auto.
  - pose proof (pr_gc _ _ _ _ H g T) as E. rewrite X in E. rewrite (cnt_dec_ok _ _ _ E L). eexists; split; [reflexivity|].
    destruct H as [A B C D F I J K]. constructor; cbn [p_mh p_gh p_ents p_mc p_gc p_groups p_nm p_ng with_counts]; auto.
    + rewrite list_set_length. auto.
    + intros m' Hm. apply list_set_cnt; [congruence| |].
      * intros N. rewrite cset_neq by congruence. auto.
      * intros ->. rewrite cset_eq. auto.
Qed.

Definition bad_code M G (x : idx) : option pcode :=
  match x with
  | Mbr m => match M m : option (nat * list N) with None => Some PInvalidMbr | Some _ => None end
  | Grp g => match G g : option (list nat) with
             | None => Some PInvalidGrp | Some [] => Some PEmptyGrp | Some _ => None end
  end.

Lemma PR_check p M G c x : PR p M G c -> check_idx p x = Some (bad_code M G x).
Proof.
  intros H. unfold check_idx, valid_idx, empty_idx, bad_code. destruct x as [m|g].
  - rewrite (HR_valid _ _ _ _ (pr_m _ _ _ _ H)). destruct (M m); reflexivity.
  - rewrite (HR_valid _ _ _ _ (pr_g _ _ _ _ H)). destruct (G g) as [l|] eqn:E; cbn; auto.
    rewrite (pr_gr _ _ _ _ H _ _ E). destruct l; reflexivity.
Qed.

Lemma PR_valid_idx p M G c x : PR p M G c -> valid_idx p x =
  Some (match x with Mbr m => if some (M m) then None else Some PInvalidMbr
                   | Grp g => if some (G g) then None else Some PInvalidGrp end).
Proof.
  intros H. unfold valid_idx. destruct x as [m|g].
  - rewrite (HR_valid _ _ _ _ (pr_m _ _ _ _ H)). destruct (M m); reflexivity.
  - rewrite (HR_valid _ _ _ _ (pr_g _ _ _ _ H)). destruct (G g); reflexivity.
Qed.

Lemma filled_le {A} (l : list A) m : (forall k, k < m -> nth_error l k <> None) -> m <= length l.
Proof.
  intros H. destruct m; [lia|]. specialize (H m ltac:(lia)). apply nth_error_Some in H. lia.
Qed.

(** Members come and go. *)
Lemma PR_add_member p M G c fn data np : PR p M G c -> length data = np fn ->
  (forall m, M m = None -> c (Mbr m) = 0) ->
  (p_add_member np p fn data = Some (p, PExhausted) /\ forall k, (N.of_nat k < 2 ^ 24)%N -> M k <> None) \/
  exists m p', p_add_member np p fn data = Some (p', PNewMbr m) /\ M m = None /\
    (forall k, k < m -> M k <> None) /\ (N.of_nat m < 2 ^ 24)%N /\ PR p' (upd M m (Some (fn, data))) G c.
Proof.
  intros H L Z. unfold p_add_member. rewrite L, Nat.eqb_refl. cbn [negb].
  destruct (HR_get _ _ _ (fn, data) (pr_m _ _ _ _ H)) as (h' & m & E & F & K & H'). rewrite E.
  destruct (N.leb_spec index_limit (N.of_nat m)) as [LE|LT].
  - left. split; auto. intros k Hk. apply K. unfold index_limit in LE. change (2 ^ 24)%N with 16777216%N in Hk. lia.
  - right. assert (K2 : forall k, k < m -> nth_error (p_ents p) k <> None).
    { intros k Hk. specialize (K k Hk). destruct (M k) as [a|] eqn:Q; [|congruence]. rewrite (pr_e _ _ _ _ H _ _ Q). congruence. }
    apply filled_le in K2.
    destruct (vec_put_ok (p_ents p) m (fn, data) K2) as (es & -> & V1 & V2 & V3).
    destruct (vec_put_ok (p_mc p) m 0%N ltac:(rewrite (pr_ml _ _ _ _ H); auto)) as (mc & -> & W1 & W2 & W3).
    do 2 eexists. split; [reflexivity|]. split; auto. split; auto. split; [exact LT|].
    destruct H as [A B C D X I J K']. constructor; cbn [p_mh p_gh p_ents p_mc p_gc p_groups p_nm p_ng]; auto.
    + congruence.
    + unfold upd. intros m' a. destruct (Nat.eqb_spec m' m) as [->|N]; [congruence|]. intros Q.
      pose proof (X _ _ Q) as Y. rewrite V2; auto. apply nth_error_Some. congruence.
    + unfold upd. intros m'. destruct (Nat.eqb_spec m' m) as [->|N]; intros Q.
      * rewrite W1, Z; auto.
      * pose proof (J _ Q) as Y. rewrite W2; auto. apply nth_error_Some. congruence.
Qed.

Lemma PR_add_group p M G c : PR p M G c -> (forall g, G g = None -> c (Grp g) = 0) ->
  (p_add_group p = Some (p, PExhausted) /\ forall k, (N.of_nat k < 2 ^ 24)%N -> G k <> None) \/
  exists g p', p_add_group p = Some (p', PNewGrp g) /\ G g = None /\
    (forall k, k < g -> G k <> None) /\ (N.of_nat g < 2 ^ 24)%N /\ PR p' M (upd G g (Some [])) c.
Proof.
  intros H Z. unfold p_add_group.
  destruct (HR_get _ _ _ (@nil nat) (pr_g _ _ _ _ H)) as (h' & m & E & F & K & H'). rewrite E.
  destruct (N.leb_spec index_limit (N.of_nat m)) as [LE|LT].
  - left. split; auto. intros k Hk. apply K. unfold index_limit in LE. change (2 ^ 24)%N with 16777216%N in Hk. lia.
  - right. assert (K2 : forall k, k < m -> nth_error (p_groups p) k <> None).
    { intros k Hk. specialize (K k Hk). destruct (G k) as [a|] eqn:Q; [|congruence]. rewrite (pr_gr _ _ _ _ H _ _ Q). congruence. }
    apply filled_le in K2.
    destruct (vec_put_ok (p_groups p) m [] K2) as (es & -> & V1 & V2 & V3).
    destruct (vec_put_ok (p_gc p) m 0%N ltac:(pose proof (pr_gl _ _ _ _ H); lia)) as (mc & -> & W1 & W2 & W3).
    do 2 eexists. split; [reflexivity|]. split; auto. split; auto. split; [exact LT|].
    destruct H as [A B C D X I J K']. constructor; cbn [p_mh p_gh p_ents p_mc p_gc p_groups p_nm p_ng]; auto.
    + lia.
    + unfold upd. intros m' a. destruct (Nat.eqb_spec m' m) as [->|N]; [congruence|]. intros Q.
      pose proof (I _ _ Q) as Y. rewrite V2; auto. apply nth_error_Some. congruence.
    + unfold upd. intros m'. destruct (Nat.eqb_spec m' m) as [->|N]; intros Q.
      * rewrite W1, Z; auto.
      * pose proof (K' _ Q) as Y. rewrite W2; auto. apply nth_error_Some. congruence.
Qed.

Lemma PR_del_member p M G c m : PR p M G c -> M m <> None ->
  if c (Mbr m) =? 0
  then exists p', p_del_member p m = Some (p', POk) /\ PR p' (upd M m None) G c
  else p_del_member p m = Some (p, PErr PMbrUsed).
Proof.
  intros H T. unfold p_del_member. rewrite (HR_valid _ _ _ _ (pr_m _ _ _ _ H)), (proj2 (some_true _) T).
  rewrite (pr_mc _ _ _ _ H m T). destruct (Nat.eqb_spec (c (Mbr m)) 0) as [Z|Z].
  - rewrite Z. cbn [N.of_nat]. destruct (N.ltb_spec 0 0); [lia|].
    destruct (HR_rel _ _ _ m (pr_m _ _ _ _ H) T) as (h' & -> & H'). eexists; split; [reflexivity|].
    destruct H as [A B C D X I J K']. constructor; cbn [p_mh p_gh p_ents p_mc p_gc p_groups p_nm p_ng]; auto.
    + unfold upd. intros m' a. destruct (m' =? m); [discriminate|auto].
    + unfold upd. intros m'. destruct (m' =? m); [congruence|auto].
  - destruct (N.ltb_spec 0 (N.of_nat (c (Mbr m)))); [auto|lia].
Qed.

(** Dropping one reference per member of a group. *)
Lemma dec_all_ok l : forall mc (c : nat -> nat), NoDup l ->
  (forall m, In m l -> nth_error mc m = Some (N.of_nat (c m)) /\ 0 < c m /\ (N.of_nat (c m) < 2 ^ 32)%N) ->
  exists mc', dec_all mc l = Some mc' /\ length mc' = length mc /\
    (forall m, In m l -> nth_error mc' m = Some (N.of_nat (c m - 1))) /\
    (forall m, ~ In m l -> nth_error mc' m = nth_error mc m).
Proof.
  induction l as [|x l IH]; intros mc c ND H; cbn [dec_all].
  - exists mc. cbn. repeat (split; auto). intros m [].
  - inversion ND as [|? ? NI ND']; subst. destruct (H x ltac:(left; auto)) as (E & P & L).
    destruct (c x) as [|k] eqn:CX; [lia|]. rewrite (cnt_dec_ok _ _ _ E L).
    destruct (IH (list_set mc x (N.of_nat k)) c ND') as (mc' & E' & Len & I1 & I2).
    { intros m Hm. rewrite nth_error_list_set_neq by (intros ->; auto). apply H. right; auto. }
    exists mc'. split; auto. split; [rewrite Len; apply list_set_length|]. split.
    + intros m [->|Hm]; auto. rewrite I2 by auto. rewrite nth_error_list_set_eq by (apply nth_error_Some; congruence).
      rewrite CX. do 2 f_equal. lia.
    + intros m Hm. rewrite I2 by (intros Q; apply Hm; right; auto). apply nth_error_list_set_neq.
      intros ->. apply Hm. left; auto.
Qed.

Lemma sorted_nodup l : StronglySorted lt l -> NoDup l.
Proof.
  induction 1 as [|x l S IH F]; constructor; auto. intros I.
  apply (proj1 (Forall_forall _ _) F) in I. lia.
Qed.

Definition cdrop (c : idx -> nat) (l : list nat) : idx -> nat :=
  fun x => match x with Mbr m => if set_mem m l then c x - 1 else c x | Grp _ => c x end.

Lemma PR_del_group p M G c g l : PR p M G c -> G g = Some l -> StronglySorted lt l ->
  (forall m, In m l -> M m <> None /\ 0 < c (Mbr m) /\ (N.of_nat (c (Mbr m)) < 2 ^ 32)%N) ->
  if c (Grp g) =? 0
  then exists p', p_del_group p g = Some (p', POk) /\ PR p' M (upd G g None) (cdrop c l)
  else p_del_group p g = Some (p, PErr PGrpUsed).
Proof.
  intros H T S LV. unfold p_del_group. assert (T' : G g <> None) by congruence.
  rewrite (HR_valid _ _ _ _ (pr_g _ _ _ _ H)), (proj2 (some_true _) T').
  rewrite (pr_gc _ _ _ _ H g T'), (pr_gr _ _ _ _ H _ _ T). destruct (Nat.eqb_spec (c (Grp g)) 0) as [Z|Z].
  - rewrite Z. cbn [N.of_nat]. destruct (N.ltb_spec 0 0); [lia|].
    destruct (dec_all_ok l (p_mc p) (fun m => c (Mbr m)) (sorted_nodup _ S)) as (mc' & -> & Len & I1 & I2).
    { intros m Hm. destruct (LV m Hm) as (A & B & C). split; [apply (pr_mc _ _ _ _ H); auto|auto]. }
    destruct (HR_rel _ _ _ g (pr_g _ _ _ _ H) T') as (h' & -> & H'). eexists; split; [reflexivity|].
    destruct H as [A B C D X I J K']. constructor; cbn [p_mh p_gh p_ents p_mc p_gc p_groups p_nm p_ng]; auto.
    + congruence.
    + unfold upd. intros m' a. destruct (m' =? g); [discriminate|auto].
    + intros m Hm. unfold cdrop. destruct (set_mem m l) eqn:Q.
      * apply I1. apply set_mem_In; auto.
      * rewrite I2; [auto|]. intros Q'. apply set_mem_In in Q'. congruence.
    + unfold upd. intros m'. destruct (m' =? g); [congruence|]. cbn. auto.
  - destruct (N.ltb_spec 0 (N.of_nat (c (Grp g)))); [auto|lia].
Qed.

Lemma PR_mod_member p M G c m fn data np : PR p M G c -> length data = np fn -> M m <> None ->
  exists p', p_mod_member np p m fn data = Some (p', POk) /\ PR p' (upd M m (Some (fn, data))) G c.
Proof.
  intros H L T. unfold p_mod_member. rewrite L, Nat.eqb_refl. cbn [negb].
  rewrite (HR_valid _ _ _ _ (pr_m _ _ _ _ H)), (proj2 (some_true _) T).
  assert (LT : m < length (p_ents p)).
  { destruct (M m) as [a|] eqn:E; [|congruence]. apply nth_error_Some. rewrite (pr_e _ _ _ _ H _ _ E). congruence. }
  destruct (Nat.ltb_spec m (length (p_ents p))); [|lia]. eexists; split; [reflexivity|].
  destruct H as [A B C D X I J K']. constructor; cbn [p_mh p_gh p_ents p_mc p_gc p_groups p_nm p_ng]; auto.
  - apply (HR_ext _ _ _ _ A). intros i. unfold upd. destruct (Nat.eqb_spec i m) as [->|]; [|tauto]. split; congruence.
  - rewrite list_set_length. auto.
  - unfold upd. intros m' a. destruct (Nat.eqb_spec m' m) as [->|N]; intros Q.
    + injection Q as <-. apply nth_error_list_set_eq. auto.
    + rewrite nth_error_list_set_neq by auto. auto.
  - intros m0 Q. apply J. intros Z. apply Q. unfold upd. destruct (m0 =? m) eqn:E; auto. apply Nat.eqb_eq in E. congruence.
Qed.

Lemma PR_group_set p M G c g l l' m k : PR p M G c -> G g = Some l -> M m <> None ->
  PR (set_group p g l' (list_set (p_mc p) m (N.of_nat k))) M (upd G g (Some l')) (cset c (Mbr m) k).
Proof.
  intros [A B C D X I J K'] T Hm. constructor; cbn [p_mh p_gh p_ents p_mc p_gc p_groups p_nm p_ng set_group]; auto.
  - apply (HR_ext _ _ _ _ B). intros i. unfold upd. destruct (Nat.eqb_spec i g) as [->|]; [|tauto]. split; congruence.
  - rewrite list_set_length. auto.
  - rewrite list_set_length. auto.
  - unfold upd. intros g' a. destruct (Nat.eqb_spec g' g) as [->|N]; intros Q.
    + injection Q as <-. apply nth_error_list_set_eq. apply nth_error_Some. rewrite (I _ _ T). congruence.
    + rewrite nth_error_list_set_neq by auto. auto.
  - intros m' Hm'. apply list_set_cnt; [rewrite (J _ Hm); congruence| |].
    + intros N. rewrite cset_neq by congruence. auto.
    + intros ->. rewrite cset_eq. auto.
  - intros g' Q. rewrite cset_neq by discriminate. apply K'. intros Z. apply Q. unfold upd. destruct (g' =? g) eqn:E; auto. apply Nat.eqb_eq in E. congruence.
Qed.

Lemma zip_at_ok {A} (v : list A) (f : nat -> option A) : forall hs,
  (forall i a, f i = Some a -> nth_error v i = Some a) -> (forall i, In i hs -> f i <> None) ->
  exists l, zip_at v hs = Some l /\ map fst l = hs /\ (forall i a, In (i, a) l <-> In i hs /\ f i = Some a).
Proof.
  induction hs as [|h hs IH]; intros V F; cbn [zip_at].
  - exists []. cbn. repeat (split; auto); tauto.
  - destruct (f h) as [a|] eqn:E; [|exfalso; apply (F h); cbn; auto]. rewrite (V _ _ E).
    destruct IH as (l & -> & M & I); auto. { intros i Hi. apply F. right; auto. }
    eexists; split; [reflexivity|]. split; [cbn; congruence|]. intros i b. cbn [In]. rewrite I. split.
    + intros [Q|[Q1 Q2]]; [injection Q as <- <-; auto|auto].
    + intros [[->|Q1] Q2]; [left; congruence|auto].
Qed.

Lemma HR_iter h n {A} (f : nat -> option A) (v : list A) : HR h n f ->
  (forall i a, f i = Some a -> nth_error v i = Some a) ->
  exists hs l, hm_iterate h = Some hs /\ length hs = n /\ zip_at v hs = Some l /\ StronglySorted lt (map fst l) /\
    (forall i a, In (i, a) l <-> f i = Some a).
Proof.
  intros (a & H & N & L) V. destruct (iterate_ok _ _ H) as (hs & E & S & I).
  destruct (zip_at_ok v f hs V) as (l & Z & M & Q). { intros i Hi. apply L, I. auto. }
  exists hs, l. split; auto. split.
  - rewrite N. apply Nat.le_antisymm; apply NoDup_incl_length.
    + apply sorted_nodup; auto. + intros x Hx. apply I; auto.
    + apply (R_nodup _ _ H). + intros x Hx. apply I; auto.
  - split; auto. split; [rewrite M; auto|]. intros i b. rewrite Q. split; [tauto|]. intros F. split; auto.
    apply I, L. congruence.
Qed.

(** Lookup through the profile. *)
Lemma choose_pick l hash : l <> [] -> choose l hash = Some (pick l hash).
Proof.
  intros H. unfold choose, pick. destruct l as [|x l]; [congruence|]. clear H.
  apply nth_error_nth'. set (n := length (x :: l)). assert (n <> 0) by (unfold n; cbn; lia).
  match goal with |- N.to_nat (?a mod _) < _ => pose proof (N.mod_lt a (N.of_nat n)) end. lia.
Qed.
Lemma pick_In l hash : l <> [] -> In (pick l hash) l.
Proof. intros H. eapply nth_error_In. unfold choose in *. pose proof (choose_pick l hash H) as E. unfold choose in E.
  destruct l; [congruence|exact E]. Qed.

Lemma PR_lookup p M G c x hash : PR p M G c -> bad_code M G x = None ->
  (forall g l m, G g = Some l -> In m l -> M m <> None) ->
  exists a, p_lookup p x hash = Some a /\
    match x with Mbr m => M m = Some a | Grp g => exists l, G g = Some l /\ l <> [] /\ M (pick l hash) = Some a end.
Proof.
  intros H B LV. unfold p_lookup. destruct x as [m|g]; cbn in B.
  - rewrite (HR_valid _ _ _ _ (pr_m _ _ _ _ H)). destruct (M m) as [a|] eqn:E; [|discriminate]. cbn [some].
    rewrite (pr_e _ _ _ _ H _ _ E). eauto.
  - rewrite (HR_valid _ _ _ _ (pr_g _ _ _ _ H)). destruct (G g) as [l|] eqn:E; [|discriminate]. cbn [some].
    rewrite (pr_gr _ _ _ _ H _ _ E). assert (NE : l <> []) by (destruct l; congruence).
    rewrite (choose_pick l hash NE). pose proof (LV _ _ _ E (pick_In l hash NE)) as Q.
    rewrite (HR_valid _ _ _ _ (pr_m _ _ _ _ H)). destruct (M (pick l hash)) as [a|] eqn:E2; [|congruence]. cbn [some].
    rewrite (pr_e _ _ _ _ H _ _ E2). exists a. split; auto. exists l. auto.
Qed.
