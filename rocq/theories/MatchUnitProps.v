(** C01 (LPM tables), C03, C04, C05, C06, C07: entry stores of match tables. *)
From Coq Require Import List Arith NArith ZArith Bool Lia.
From Verif Require Import Bits EntryListModel EntryListSpec MatchUnitModel MatchUnitSpec
  MatchUnitProofs MatchUnitConseq.
Import ListNotations.

(** ** Every history of every kind of table behaves as the slot-table specification. *)
Lemma unit_refines : forall (V : Type) kd nbytes size cache (ops : list (mop V)),
  (N.of_nat size <= 2 ^ 24)%N -> ops_ok kd nbytes 0 ops ->
  exists u outs t, mu_run kd nbytes (mu_new kd size cache) ops = Some (u, outs) /\
    mspec_run kd nbytes size tab_empty ops outs t.
Proof. intros. apply run_new; auto. Qed.

(** The last call of a history, against the table built by the calls before it. *)
Lemma unit_last : forall (V : Type) kd nbytes size cache (ops : list (mop V)) o u outs x,
  (N.of_nat size <= 2 ^ 24)%N -> ops_ok kd nbytes 0 (ops ++ [o]) ->
  mu_run kd nbytes (mu_new kd size cache) (ops ++ [o]) = Some (u, outs ++ [x]) ->
  exists t t', mspec_run kd nbytes size tab_empty ops outs t /\ mspec_step kd nbytes size t o x t'.
Proof.
  intros V kd nbytes size cache ops o u outs x Hs Ho R.
  destruct (run_new kd nbytes size cache Hs _ Ho) as (u' & outs' & t' & R' & Sp).
  rewrite R in R'. injection R' as <- <-.
  apply run_app in Sp. destruct Sp as (x1 & x2 & tm & E & L & A & B).
  inversion B as [|? ? y t1 ? ys ? St Rr]; subst. inversion Rr; subst.
  apply app_inj_tail in E. destruct E as [-> ->]. eauto.
Qed.

(** *** C03 *)
Theorem C03_best_priority : forall (V : Type) kd nbytes size cache (ops : list (mop V)),
  kd = KTernary \/ kd = KRange ->
  (N.of_nat size <= 2 ^ 24)%N -> ops_ok kd nbytes 0 ops ->
  exists u outs t, mu_run kd nbytes (mu_new kd size cache) ops = Some (u, outs) /\
    mspec_run kd nbytes size tab_empty ops outs t.
Proof. intros. apply run_new; auto. Qed.
Print Assumptions C03_best_priority.

Theorem C03_lookup_answer : forall (V : Type) kd nbytes size cache (ops : list (mop V)) ts len key u outs x,
  kd = KTernary \/ kd = KRange ->
  (N.of_nat size <= 2 ^ 24)%N -> ops_ok kd nbytes 0 (ops ++ [MLookup ts len key]) ->
  mu_run kd nbytes (mu_new kd size cache) (ops ++ [MLookup ts len key]) = Some (u, outs ++ [x]) ->
  exists t, mspec_run kd nbytes size tab_empty ops outs t /\
    ((x = MMiss /\ forall i e, slot_of t i = Some e -> ~ key_matches kd nbytes (s_key e) key) \/
     (exists i e, x = MFound (handle_of t i) (Some (s_val e)) /\ slot_of t i = Some e /\
        key_matches kd nbytes (s_key e) key /\
        forall i' e', slot_of t i' = Some e' -> key_matches kd nbytes (s_key e') key ->
          (k_prio (s_key e) < k_prio (s_key e'))%Z \/
          (k_prio (s_key e) = k_prio (s_key e') /\ i <= i'))).
Proof.
  intros V kd nbytes size cache ops ts len key u outs x K Hs Ho R.
  destruct (unit_last _ _ _ _ _ _ _ _ _ _ Hs Ho R) as (t & t' & Sp & St). exists t. split; auto.
  inversion St; subst; auto. right. match goal with H : lookup_answer _ _ _ _ _ |- _ => destruct H as (A & B & C) end.
  exists i, e. destruct K as [-> | ->]; auto.
Qed.
Print Assumptions C03_lookup_answer.

(** *** C01 for whole LPM tables and C05 for exact tables *)
Theorem C01_lpm_table_lookup : forall (V : Type) nbytes size cache (ops : list (mop V)) ts len key u outs x,
  (N.of_nat size <= 2 ^ 24)%N -> ops_ok KLpm nbytes 0 (ops ++ [MLookup ts len key]) ->
  mu_run KLpm nbytes (mu_new KLpm size cache) (ops ++ [MLookup ts len key]) = Some (u, outs ++ [x]) ->
  exists t, mspec_run KLpm nbytes size tab_empty ops outs t /\
    ((x = MMiss /\ forall i e, slot_of t i = Some e -> ~ key_matches KLpm nbytes (s_key e) key) \/
     (exists i e, x = MFound (handle_of t i) (Some (s_val e)) /\ slot_of t i = Some e /\
        key_matches KLpm nbytes (s_key e) key /\
        forall i' e', slot_of t i' = Some e' -> key_matches KLpm nbytes (s_key e') key ->
          k_plen (s_key e') <= k_plen (s_key e))).
Proof.
  intros V nbytes size cache ops ts len key u outs x Hs Ho R.
  destruct (unit_last _ _ _ _ _ _ _ _ _ _ Hs Ho R) as (t & t' & Sp & St). exists t. split; auto.
  inversion St; subst; auto. right. match goal with H : lookup_answer _ _ _ _ _ |- _ => destruct H as (A & B & C) end.
  exists i, e. auto.
Qed.
Print Assumptions C01_lpm_table_lookup.

Theorem C05_exact_match : forall (V : Type) nbytes size cache (ops : list (mop V)),
  (N.of_nat size <= 2 ^ 24)%N -> ops_ok KExact nbytes 0 ops ->
  exists u outs t, mu_run KExact nbytes (mu_new KExact size cache) ops = Some (u, outs) /\
    mspec_run KExact nbytes size tab_empty ops outs t /\
    (forall i e i' e', slot_of t i = Some e -> slot_of t i' = Some e' ->
       k_data (s_key e) = k_data (s_key e') -> i = i').
Proof.
  intros V nbytes size cache ops Hs Ho.
  destruct (run_new KExact nbytes size cache Hs ops Ho) as (u & outs & t & R & Sp).
  exists u, outs, t. split; auto. split; auto. intros i e i' e' A B C.
  apply (iv_uniq _ _ _ _ (run_inv _ _ _ _ _ _ _ _ (inv_empty _ _ _) Ho Sp) i e i' e'); auto.
Qed.
Print Assumptions C05_exact_match.

Theorem C05_lookup_answer : forall (V : Type) nbytes size cache (ops : list (mop V)) ts len key u outs x,
  (N.of_nat size <= 2 ^ 24)%N -> ops_ok KExact nbytes 0 (ops ++ [MLookup ts len key]) ->
  mu_run KExact nbytes (mu_new KExact size cache) (ops ++ [MLookup ts len key]) = Some (u, outs ++ [x]) ->
  exists t, mspec_run KExact nbytes size tab_empty ops outs t /\
    ((x = MMiss /\ forall i e, slot_of t i = Some e -> k_data (s_key e) <> key) \/
     (exists i e, x = MFound (handle_of t i) (Some (s_val e)) /\ slot_of t i = Some e /\
        k_data (s_key e) = key)).
Proof.
  intros V nbytes size cache ops ts len key u outs x Hs Ho R.
  destruct (unit_last _ _ _ _ _ _ _ _ _ _ Hs Ho R) as (t & t' & Sp & St). exists t. split; auto.
  inversion St; subst; auto. right. match goal with H : lookup_answer _ _ _ _ _ |- _ => destruct H as (A & B & C) end.
  exists i, e. auto.
Qed.
Print Assumptions C05_lookup_answer.

(** *** C04 *)
Theorem C04_cache_invisible : forall (V : Type) kd nbytes size (ops : list (mop V)),
  (N.of_nat size <= 2 ^ 24)%N -> ops_ok kd nbytes 0 ops ->
  exists u1 u2 outs,
    mu_run kd nbytes (mu_new kd size true) ops = Some (u1, outs) /\
    mu_run kd nbytes (mu_new kd size false) ops = Some (u2, outs).
Proof.
  intros V kd nbytes size ops Hs Ho.
  destruct (run_new kd nbytes size true Hs ops Ho) as (u1 & o1 & t1 & R1 & S1).
  destruct (run_new kd nbytes size false Hs ops Ho) as (u2 & o2 & t2 & R2 & S2).
  destruct (run_det _ _ _ _ _ _ _ _ _ _ (inv_empty _ _ _) Ho S1 S2) as [-> _]. eauto.
Qed.
Print Assumptions C04_cache_invisible.

(** Concurrent lookups (cache probe, scan and cache update interleaving freely, writers
    excluded by the table lock): the completed calls, in completion order, form a history of
    the cache-less specification. *)
Theorem C04_cache_invisible_concurrent : forall (V : Type) kd nbytes size cache (es : list (cev V)),
  (N.of_nat size <= 2 ^ 24)%N -> evs_ok kd nbytes 0 es ->
  exists c done t, c_run kd nbytes (mkC (mu_new kd size cache) []) es = Some (c, done) /\
    mspec_run kd nbytes size tab_empty (map fst done) (map snd done) t.
Proof.
  intros V kd nbytes size cache es Hs Ho.
  apply (c_run_ok kd nbytes size cache Hs es 0 (mu_new kd size cache) [] tab_empty); auto.
  - apply MR_new; auto.
  - intros tid ts len key [].
Qed.
Print Assumptions C04_cache_invisible_concurrent.

(** *** C06 *)
Lemma split_outs {A} (o1 : list A) x o2 p1 y p2 :
  o1 ++ x :: o2 = p1 ++ y :: p2 -> length o1 = length p1 -> o1 = p1 /\ x = y /\ o2 = p2.
Proof.
  revert p1. induction o1 as [|a o1 IH]; intros [|b p1] E L; cbn in *; try discriminate.
  - injection E as -> ->. auto.
  - injection E as -> E. destruct (IH p1 E) as (-> & -> & ->); auto.
Qed.

Theorem C06_handle_denotes_entry :
  forall (V : Type) kd nbytes size cache (ops1 : list (mop V)) now k v ops2 h u outs1 outs2 x,
  (N.of_nat size <= 2 ^ 24)%N ->
  ops_ok kd nbytes 0 (ops1 ++ MAdd now k v :: ops2 ++ [MGetEntry h]) ->
  mu_run kd nbytes (mu_new kd size cache) (ops1 ++ MAdd now k v :: ops2 ++ [MGetEntry h])
    = Some (u, outs1 ++ MHandle h :: outs2 ++ [x]) ->
  length outs1 = length ops1 ->
  ~ In (MDel h) ops2 -> ~ In MReset ops2 ->
  x = MEntry k (Some (last_value h v ops2)).
Proof.
  intros V kd nbytes size cache ops1 now k v ops2 h u outs1 outs2 x Hs Ho R L1 Nd Nr.
  destruct (run_new kd nbytes size cache Hs _ Ho) as (u' & outs' & t' & R' & Sp).
  rewrite R in R'. injection R' as <- <-. pose proof Ho as Ho'.
  apply ops_ok_app in Ho. destruct Ho as (Ho1 & l1 & _ & Ho2).
  apply run_app in Sp. destruct Sp as (x1 & x2 & t1 & E & L & A & B).
  inversion B as [|? ? y t2 ? ys ? St Rr]; subst. apply split_outs in E; [|congruence].
  destruct E as (-> & <- & <-).
  pose proof (run_inv _ _ _ _ _ _ _ _ (inv_empty _ _ _) Ho1 A) as I1.
  pose proof (step_inv _ _ _ _ _ _ _ _ _ I1 Ho2 St) as I2.
  apply run_app in Rr. destruct Rr as (y1 & y2 & t3 & E & Ly & C & D).
  inversion D as [|? ? z t4 ? zs ? St' Rr']; subst. inversion Rr'; subst.
  apply app_inj_tail in E. destruct E as [<- <-].
  destruct Ho2 as [_ Ho2]. apply ops_ok_app in Ho2. destruct Ho2 as (Ho2 & _).
  inversion St; subst.
  destruct (stable_run kd nbytes size _ _ _ _ _ i k v (handle_of t1 i) I2 Hs Ho2 C) as [(e & E1 & E2 & E3) E4].
  { cbn [slot_of]. rewrite set_slot_eq. eexists; split; [reflexivity|]. auto. }
  { reflexivity. }
  { auto. }
  { auto. }
  pose proof (run_inv _ _ _ _ _ _ _ _ I2 Ho2 C) as I3.
  assert (Q : slot_of t3 i <> None) by congruence.
  destruct (handle_of_slot kd nbytes size t3 i I3 Hs Q) as [Q1 Q2].
  assert (Rs : resolves t3 (handle_of t1 i) (inr (i, e))).
  { pose proof (rs_ok t3 (handle_of t1 i) e) as G. rewrite E4, Q1 in G. rewrite E4. apply G; auto. }
  inversion St'; subst.
  - match goal with H : resolves _ _ (inl _) |- _ => pose proof (resolves_det _ _ _ _ Rs H); discriminate end.
  - match goal with H : resolves _ _ (inr (?a, ?b)) |- _ => pose proof (resolves_det _ _ _ _ Rs H) as X; injection X as <- <- end.
    congruence.
Qed.
Print Assumptions C06_handle_denotes_entry.

Theorem C06_deleted_handle_refused :
  forall (V : Type) kd nbytes size cache (ops1 : list (mop V)) h ops2 o u outs1 outs2 x,
  (N.of_nat size <= 2 ^ 24)%N ->
  ops_ok kd nbytes 0 (ops1 ++ MDel h :: ops2 ++ [o]) ->
  mu_run kd nbytes (mu_new kd size cache) (ops1 ++ MDel h :: ops2 ++ [o])
    = Some (u, outs1 ++ MCode MSuccess :: outs2 ++ [x]) ->
  length outs1 = length ops1 ->
  ~ In MReset ops2 -> deletes_of (h_slot h) ops2 < 255 -> uses_handle o h ->
  x = MCode MInvalid \/ x = MCode MExpired.
Proof.
  intros V kd nbytes size cache ops1 h ops2 o u outs1 outs2 x Hs Ho R L1 Nr Nd U.
  destruct (run_new kd nbytes size cache Hs _ Ho) as (u' & outs' & t' & R' & Sp).
  rewrite R in R'. injection R' as <- <-.
  apply run_app in Sp. destruct Sp as (x1 & x2 & t1 & E & L & A & B).
  inversion B as [|? ? y t2 ? ys ? St Rr]; subst. apply split_outs in E; [|congruence].
  destruct E as (-> & <- & <-).
  apply run_app in Rr. destruct Rr as (y1 & y2 & t3 & E & Ly & C & D).
  inversion D as [|? ? z t4 ? zs ? St' Rr']; subst. inversion Rr'; subst.
  apply app_inj_tail in E. destruct E as [<- <-].
  eapply deleted_refused; eauto.
Qed.
Print Assumptions C06_deleted_handle_refused.

Theorem C06_handle_was_issued :
  forall (V : Type) kd nbytes size cache (ops : list (mop V)) h o u outs x,
  (N.of_nat size <= 2 ^ 24)%N -> ops_ok kd nbytes 0 (ops ++ [o]) ->
  mu_run kd nbytes (mu_new kd size cache) (ops ++ [o]) = Some (u, outs ++ [x]) ->
  uses_handle o h -> x <> MCode MInvalid -> x <> MCode MExpired ->
  exists n now k v, nth_error ops n = Some (MAdd now k v) /\ nth_error outs n = Some (MHandle h).
Proof.
  intros V kd nbytes size cache ops h o u outs x Hs Ho R U N1 N2.
  destruct (unit_last _ _ _ _ _ _ _ _ _ _ Hs Ho R) as (t & t' & Sp & St).
  apply ops_ok_app in Ho. destruct Ho as [Ho _].
  pose proof (run_inv _ _ _ _ _ _ _ _ (inv_empty _ _ _) Ho Sp) as I.
  destruct (uses_ok _ _ _ _ _ _ _ _ U St) as [(c & Rs & ->)|(i & e & Rs)].
  - destruct (resolves_err _ _ _ Rs) as [->| ->]; congruence.
  - apply resolves_slot in Rs. destruct Rs as (A & B & C).
    assert (Q : slot_of t i <> None) by congruence.
    pose proof (issued_run kd nbytes size ops [] [] 0 tab_empty outs t eq_refl (inv_empty _ _ _) Hs Ho) as P.
    cbn [app] in P. specialize (P ltac:(cbn; congruence) Sp i Q).
    destruct (handle_of_slot kd nbytes size t i I Hs Q) as [Q1 Q2].
    replace h with (handle_of t i); [exact P|]. apply handle_eq; congruence.
Qed.
Print Assumptions C06_handle_was_issued.

(** *** C07 *)
Theorem C07_capacity : forall (V : Type) kd nbytes size cache (ops : list (mop V)) u outs n,
  (N.of_nat size <= 2 ^ 24)%N -> ops_ok kd nbytes 0 (ops ++ [MCount]) ->
  mu_run kd nbytes (mu_new kd size cache) (ops ++ [MCount]) = Some (u, outs ++ [MNum n]) ->
  n <= size /\
  exists t l, mspec_run kd nbytes size tab_empty ops outs t /\ length l = n /\ NoDup l /\
    forall i, In i l <-> slot_of t i <> None.
Proof.
  intros V kd nbytes size cache ops u outs n Hs Ho R.
  destruct (unit_last _ _ _ _ _ _ _ _ _ _ Hs Ho R) as (t & t' & Sp & St).
  apply ops_ok_app in Ho. destruct Ho as [Ho _]. inversion St; subst.
  split; [eapply size_bound; eauto|]. exists t', l. split; auto. split; auto.
  match goal with H : enumerates _ _ |- _ => destruct H as [A B] end. split; auto.
  apply NMap.sorted_lt_NoDup; auto.
Qed.
Print Assumptions C07_capacity.

(** A call answered with an error can be erased from any history without changing any other
    answer. *)
Theorem C07_error_changes_nothing :
  forall (V : Type) kd nbytes size cache (ops1 : list (mop V)) o ops2 u outs1 c outs2,
  (N.of_nat size <= 2 ^ 24)%N -> ops_ok kd nbytes 0 (ops1 ++ o :: ops2) ->
  mu_run kd nbytes (mu_new kd size cache) (ops1 ++ o :: ops2)
    = Some (u, outs1 ++ MCode c :: outs2) ->
  length outs1 = length ops1 -> c <> MSuccess ->
  exists u', mu_run kd nbytes (mu_new kd size cache) (ops1 ++ ops2) = Some (u', outs1 ++ outs2).
Proof.
  intros V kd nbytes size cache ops1 o ops2 u outs1 c outs2 Hs Ho R L1 Nc.
  destruct (run_new kd nbytes size cache Hs _ Ho) as (u' & outs' & t' & R' & Sp).
  rewrite R in R'. injection R' as <- <-.
  apply run_app in Sp. destruct Sp as (x1 & x2 & t1 & E & L & A & B).
  inversion B as [|? ? y t2 ? ys ? St Rr]; subst. apply split_outs in E; [|congruence].
  destruct E as (-> & <- & <-).
  pose proof (error_unchanged _ _ _ _ _ _ _ Nc St). subst t2.
  pose proof (run_app_join _ _ _ _ _ _ _ _ _ _ A Rr) as J.
  pose proof (ops_ok_remove _ _ _ _ _ _ Ho) as Ho2.
  destruct (run_new kd nbytes size cache Hs _ Ho2) as (u2 & outs' & t2 & R2 & Sp2).
  destruct (run_det _ _ _ _ _ _ _ _ _ _ (inv_empty _ _ _) Ho2 J Sp2) as [-> _]. eauto.
Qed.
Print Assumptions C07_error_changes_nothing.

(** TABLE_FULL is answered exactly for a new key on a table holding [size] entries. *)
Theorem C07_full : forall (V : Type) kd nbytes size cache (ops : list (mop V)) now k v u outs n x,
  (N.of_nat size <= 2 ^ 24)%N -> ops_ok kd nbytes 0 ((ops ++ [MCount]) ++ [MAdd now k v]) ->
  mu_run kd nbytes (mu_new kd size cache) ((ops ++ [MCount]) ++ [MAdd now k v])
    = Some (u, (outs ++ [MNum n]) ++ [x]) ->
  (x = MCode MFull -> n = size) /\
  (n = size -> x = MCode MFull \/ x = MCode MDuplicate) /\
  (n < size -> x = MCode MDuplicate \/ exists h, x = MHandle h).
Proof.
  intros V kd nbytes size cache ops now k v u outs n x Hs Ho R.
  destruct (unit_last _ _ _ _ _ _ _ _ _ _ Hs Ho R) as (t & t' & Sp & St).
  apply ops_ok_app in Ho. destruct Ho as [Ho _].
  pose proof (run_inv _ _ _ _ _ _ _ _ (inv_empty _ _ _) Ho Sp) as I.
  apply run_app in Sp. destruct Sp as (x1 & x2 & tm & E & L & A & B).
  inversion B as [|? ? y t1 ? ys ? St1 Rr]; subst. inversion Rr; subst.
  apply app_inj_tail in E. destruct E as [<- E]. inversion St1; subst.
  match goal with H : MNum _ = MNum _ |- _ => injection H as <- end.
  inversion St; subst.
  - split; [discriminate|]. split; auto.
  - match goal with H1 : enumerates _ l, H2 : enumerates _ l0 |- _ =>
      pose proof (enumerates_det _ _ _ H1 H2); subst l0 end. split; auto. split; auto. lia.
  - split; [discriminate|]. split; eauto. intros Hn. exfalso.
    match goal with H : enumerates _ l, E : slot_of _ _ = None, L : _ < size |- _ =>
      apply (full_no_free kd nbytes _ _ _ _ I H) in L; auto end.
Qed.
Print Assumptions C07_full.

(** ** Limits of the handle guarantee (findings) *)

Definition kx (b : N) : mkey := mkKey [b] [] 0 0 [].

(** The generation number has 8 bits: without the bound on re-use a deleted handle is accepted
    again and denotes another entry. *)
Definition cycle_ops : list (mop N) :=
  flat_map (fun g => [MAdd 0%N (kx 7) 1%N; MDel (N.of_nat (S g) * 2 ^ 24)%N]) (seq 0 255)
  ++ [MAdd 0%N (kx 9) 2%N].
Definition cycle_outs : list (mout N) :=
  flat_map (fun g => [MHandle (N.of_nat (S g) * 2 ^ 24)%N; MCode MSuccess]) (seq 0 255)
  ++ [MHandle 0%N].

Lemma cycle_run : exists u,
  mu_run KExact 1 (mu_new KExact 1 false) ([MAdd 0%N (kx 7) 1%N] ++ MDel 0%N :: cycle_ops ++ [MGet 0%N])
  = Some (u, [MHandle 0%N] ++ MCode MSuccess :: cycle_outs ++ [MValue (Some 2%N)]).
Proof. eexists. vm_compute. reflexivity. Qed.

Theorem C06_unbounded_reuse_refuted :
  ~ (forall (V : Type) kd nbytes size cache (ops1 : list (mop V)) h ops2 o u outs1 outs2 x,
      (N.of_nat size <= 2 ^ 24)%N ->
      ops_ok kd nbytes 0 (ops1 ++ MDel h :: ops2 ++ [o]) ->
      mu_run kd nbytes (mu_new kd size cache) (ops1 ++ MDel h :: ops2 ++ [o])
        = Some (u, outs1 ++ MCode MSuccess :: outs2 ++ [x]) ->
      length outs1 = length ops1 -> ~ In MReset ops2 -> uses_handle o h ->
      x = MCode MInvalid \/ x = MCode MExpired).
Proof.
  intros H. destruct cycle_run as [u E].
  assert (X : MValue (Some 2%N) = MCode MInvalid \/ MValue (Some 2%N) = @MCode N MExpired).
  { eapply H; [| |exact E| | |]; [vm_compute; discriminate|apply ops_okb_ok; vm_compute; reflexivity|reflexivity| |reflexivity].
    unfold cycle_ops. rewrite in_app_iff, in_flat_map. intros [(g & _ & [J|[J|[]]])|[J|[]]]; discriminate. }
  destruct X; discriminate.
Qed.
Print Assumptions C06_unbounded_reuse_refuted.

(** Resetting the table forgets the generations: a handle issued before the reset is accepted
    after it and denotes another entry, with no re-use cycle. *)
Theorem C06_reset_reissues_refuted :
  ~ (forall (V : Type) kd nbytes size cache (ops1 : list (mop V)) now k v ops2 h u outs1 outs2 x,
      (N.of_nat size <= 2 ^ 24)%N ->
      ops_ok kd nbytes 0 (ops1 ++ MAdd now k v :: ops2 ++ [MGetEntry h]) ->
      mu_run kd nbytes (mu_new kd size cache) (ops1 ++ MAdd now k v :: ops2 ++ [MGetEntry h])
        = Some (u, outs1 ++ MHandle h :: outs2 ++ [x]) ->
      length outs1 = length ops1 -> ~ In (MDel h) ops2 ->
      (exists c, x = MCode c) \/ x = MEntry k (Some (last_value h v ops2))).
Proof.
  intros H.
  specialize (H N KExact 1 4 false [] 0%N (kx 1) 10%N [MReset; MAdd 0%N (kx 2) 20%N] 0%N).
  edestruct H as [[c X]|X]; [vm_compute; discriminate|apply ops_okb_ok; vm_compute; reflexivity| | | | |].
  - instantiate (1 := MEntry (kx 2) (Some 20%N)). instantiate (1 := [MDone; MHandle 0%N]).
    instantiate (1 := []). vm_compute. reflexivity.
  - reflexivity.
  - intros [J|[J|[]]]; discriminate.
  - discriminate.
  - vm_compute in X. discriminate.
Qed.
Print Assumptions C06_reset_reissues_refuted.

(** set-timeout and direct-counter calls do not check the generation: a deleted handle still
    works on whatever entry re-used the slot. *)
Definition meta_op {V} (o : mop V) (h : N) : Prop :=
  match o with MTtl _ h' _ | MQuery h' | MWrite h' _ _ => h' = h | _ => False end.
Theorem C06_stale_handle_metadata_refuted :
  ~ (forall (V : Type) kd nbytes size cache (ops1 : list (mop V)) h ops2 o u outs1 outs2 x,
      (N.of_nat size <= 2 ^ 24)%N ->
      ops_ok kd nbytes 0 (ops1 ++ MDel h :: ops2 ++ [o]) ->
      mu_run kd nbytes (mu_new kd size cache) (ops1 ++ MDel h :: ops2 ++ [o])
        = Some (u, outs1 ++ MCode MSuccess :: outs2 ++ [x]) ->
      length outs1 = length ops1 -> ~ In MReset ops2 ->
      deletes_of (h_slot h) ops2 < 255 -> meta_op o h ->
      x = MCode MInvalid \/ x = MCode MExpired).
Proof.
  intros H.
  specialize (H N KExact 1 4 false [MAdd 0%N (kx 1) 10%N] 0%N [MAdd 0%N (kx 2) 20%N] (MWrite 0%N 5%N 6%N)).
  edestruct H as [X|X]; [vm_compute; discriminate|apply ops_okb_ok; vm_compute; reflexivity| | | | | | |].
  - instantiate (1 := MCode MSuccess). instantiate (1 := [MHandle 16777216%N]).
    instantiate (1 := [MHandle 0%N]). vm_compute. reflexivity.
  - reflexivity.
  - intros [J|[]]; discriminate.
  - vm_compute. lia.
  - reflexivity.
  - discriminate.
  - discriminate.
Qed.
Print Assumptions C06_stale_handle_metadata_refuted.

(** A fresh entry inherits the timeout of the previous occupant of its slot. *)
Theorem C38_fresh_entry_has_no_timeout_refuted :
  ~ (forall (V : Type) kd nbytes size cache (ops1 : list (mop V)) now k v ops2 now' u outs1 h outs2 l,
      (N.of_nat size <= 2 ^ 24)%N ->
      ops_ok kd nbytes 0 (ops1 ++ MAdd now k v :: ops2 ++ [MSweep now']) ->
      mu_run kd nbytes (mu_new kd size cache) (ops1 ++ MAdd now k v :: ops2 ++ [MSweep now'])
        = Some (u, outs1 ++ MHandle h :: outs2 ++ [MHandles l]) ->
      length outs1 = length ops1 ->
      (forall n h' x, ~ In (MTtl n h' x) ops2) -> ~ In h l).
Proof.
  intros H.
  specialize (H N KExact 1 4 false [MAdd 0%N (kx 1) 10%N; MTtl 0%N 0%N 50%N; MDel 0%N] 100%N (kx 2) 20%N [] 160%N).
  eapply H; [vm_compute; discriminate|apply ops_okb_ok; vm_compute; reflexivity| | | |].
  - instantiate (1 := [16777216%N]). instantiate (1 := []). instantiate (1 := 16777216%N).
    instantiate (1 := [MHandle 0%N; MCode MSuccess; MCode MSuccess]). vm_compute. reflexivity.
  - reflexivity.
  - intros n h' x [].
  - left. reflexivity.
Qed.
Print Assumptions C38_fresh_entry_has_no_timeout_refuted.

(** ** Concrete histories meeting the hypotheses *)
Definition kt (d m : list N) (p : Z) : mkey := mkKey d m 0 p [].
Definition kr (d m : list N) (p : Z) (w : list nat) : mkey := mkKey d m 0 p w.
Definition kl (d : list N) (n : nat) : mkey := mkKey d [] n 0 [].

Definition ternary_ops : list (mop N) :=
  [MAdd 0 (kt [10; 0] [255; 0] 5) 1; MAdd 1 (kt [10; 3] [255; 255] 3) 2; MAdd 2 (kt [0; 0] [0; 0] 9) 3;
   MAdd 2 (kt [10; 3] [255; 255] 3) 4; MLookup 3 64 [10; 3]; MLookup 4 64 [10; 4]; MLookup 5 64 [11; 4];
   MDel 1; MLookup 6 64 [10; 3]; MAdd 7 (kt [10; 0] [255; 0] 5) 6; MAdd 8 (kt [10; 0] [254; 0] 5) 7;
   MLookup 9 100 [10; 3]; MQuery 0; MMod 2 33; MGet 1; MGetEntry 2; MCount; MIter; MSweep 9]%N%Z.
Example C03_nonvacuous :
  ops_ok KTernary 2 0 ternary_ops /\
  exists u, mu_run KTernary 2 (mu_new KTernary 8 true) ternary_ops = Some (u,
    [MHandle 0; MHandle 1; MHandle 2; MCode MDuplicate; MFound 1 (Some 2); MFound 0 (Some 1);
     MFound 2 (Some 3); MCode MSuccess; MFound 0 (Some 1); MCode MDuplicate; MHandle 16777217;
     MFound 0 (Some 1); MCnt 228 3; MCode MSuccess; MCode MExpired;
     MEntry (kt [0; 0] [0; 0] 9) (Some 33);
     MNum 3; MHandles [0; 16777217; 2]; MHandles []]%N).
Proof. split; [apply ops_okb_ok; vm_compute; reflexivity|eexists; vm_compute; reflexivity]. Qed.

Definition range_ops : list (mop N) :=
  [MAdd 0 (kr [0; 10; 7] [0; 20; 255] 2 [2%nat]) 1; MAdd 0 (kr [0; 15; 0] [1; 0; 0] 1 [2%nat]) 2;
   MLookup 3 64 [0; 12; 7]; MLookup 4 64 [0; 20; 7]; MLookup 5 64 [1; 1; 7]]%N%Z.
Example C03_nonvacuous_range :
  ops_ok KRange 3 0 range_ops /\
  exists u, mu_run KRange 3 (mu_new KRange 8 true) range_ops = Some (u,
    [MHandle 0; MHandle 1; MFound 0 (Some 1); MFound 1 (Some 2); MMiss]%N).
Proof. split; [apply ops_okb_ok; vm_compute; reflexivity|eexists; vm_compute; reflexivity]. Qed.

(** enough entries for the cache to be switched on *)
Definition cache_ops : list (mop N) :=
  map (fun i => MAdd 0%N (kt [N.of_nat i] [255%N] (Z.of_nat i)) (N.of_nat i)) (seq 0 17) ++
  [MLookup 1 1 [16]; MLookup 1 1 [16]; MDel 16; MLookup 1 1 [16];
   MAdd 2 (kt [0] [0] (-1)) 99; MLookup 3 1 [16]; MLookup 3 1 [4]]%N%Z.
Example C04_nonvacuous :
  ops_ok KTernary 1 0 cache_ops /\
  exists u, mu_run KTernary 1 (mu_new KTernary 32 true) cache_ops = Some (u,
    map (fun i => MHandle (N.of_nat i)) (seq 0 17) ++
    [MFound 16 (Some 16); MFound 16 (Some 16); MCode MSuccess; MMiss; MHandle 16777232;
     MFound 16777232 (Some 99); MFound 16777232 (Some 99)]%N).
Proof. split; [apply ops_okb_ok; vm_compute; reflexivity|eexists; vm_compute; reflexivity]. Qed.

Example C04_nonvacuous_concurrent :
  let es := map (fun o => COp o) (firstn 17 cache_ops) ++
    [CStart 1 1 1 [5]; CStart 2 1 1 [5]; CEnd 1; COp (MDel 5); CEnd 2; CStart 3 1 1 [5]; COp (MDel 5);
     CStart 1 1 1 [5]; CEnd 1]%N in
  evs_ok KTernary 1 0 es /\
  exists c, c_run KTernary 1 (mkC (mu_new KTernary 32 true) []) es = Some (c,
    map (fun o => (o, MHandle match o with MAdd _ _ v => v | _ => 0%N end)) (firstn 17 cache_ops) ++
    [(MLookup 1 1 [5], MFound 5 (Some 5)); (MLookup 1 1 [5], MFound 5 (Some 5));
     (MLookup 1 1 [5], MFound 5 (Some 5)); (MDel 5, MCode MSuccess); (MLookup 1 1 [5], MMiss)]%N).
Proof.
  cbv zeta. split; [|eexists; vm_compute; reflexivity].
  cbn [firstn cache_ops map seq app evs_ok].
  repeat (split; [first [apply ops_okb_ok; vm_compute; reflexivity
                        |split; [apply bytes_okb_ok; reflexivity|reflexivity]]|]).
  exact I.
Qed.

Definition exact_ops : list (mop N) :=
  [MAdd 0 (kx 1) 10; MAdd 0 (kx 1) 11; MAdd 0 (kx 2) 12; MAdd 0 (kx 3) 13; MLookup 1 9 [2];
   MLookup 1 9 [3]; MDel 0; MDel 0; MAdd 2 (kx 3) 14; MMod 16777216 15; MGetEntry 16777216; MRetr (kx 2);
   MCount]%N.
Example C05_C06_C07_nonvacuous :
  ops_ok KExact 1 0 exact_ops /\
  exists u, mu_run KExact 1 (mu_new KExact 2 false) exact_ops = Some (u,
    [MHandle 0; MCode MDuplicate; MHandle 1; MCode MFull; MFound 1 (Some 12); MMiss;
     MCode MSuccess; MCode MInvalid; MHandle 16777216; MCode MSuccess; MEntry (kx 3) (Some 15); MHandle 1;
     MNum 2]%N).
Proof. split; [apply ops_okb_ok; vm_compute; reflexivity|eexists; vm_compute; reflexivity]. Qed.

Definition lpm_ops : list (mop N) :=
  [MAdd 0 (kl [10; 0] 8%nat) 1; MAdd 0 (kl [10; 128] 9%nat) 2; MAdd 0 (kl [10; 77] 8%nat) 3; MLookup 1 1 [10; 200];
   MLookup 1 1 [10; 100]; MDel 1; MLookup 1 1 [10; 200]; MLookup 1 1 [11; 0]]%N.
Example C01_table_nonvacuous :
  ops_ok KLpm 2 0 lpm_ops /\
  exists u, mu_run KLpm 2 (mu_new KLpm 4 false) lpm_ops = Some (u,
    [MHandle 0; MHandle 1; MCode MDuplicate; MFound 1 (Some 2); MFound 0 (Some 1); MCode MSuccess;
     MFound 0 (Some 1); MMiss]%N).
Proof. split; [apply ops_okb_ok; vm_compute; reflexivity|eexists; vm_compute; reflexivity]. Qed.
