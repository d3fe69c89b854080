From Coq Require Import List Arith NArith ZArith Bool Lia Sorted.
From Verif Require Import Base Bits SMap EntryListModel EntryListSpec.
Import ListNotations.

Lemma bytes_eqb_eq a b : bytes_eqb a b = true <-> a = b.
Proof.
  revert b. induction a as [|x a IH]; destruct b as [|y b]; cbn; split; intros H; try discriminate; auto.
  - apply andb_prop in H. destruct H as [H1 H2]. apply N.eqb_eq in H1. apply IH in H2. congruence.
  - injection H as -> ->. rewrite N.eqb_refl. apply IH. auto.
Qed.
Lemma nats_eqb_eq a b : nats_eqb a b = true <-> a = b.
Proof.
  revert b. induction a as [|x a IH]; destruct b as [|y b]; cbn; split; intros H; try discriminate; auto.
  - apply andb_prop in H. destruct H as [H1 H2]. apply Nat.eqb_eq in H1. apply IH in H2. congruence.
  - injection H as -> ->. rewrite Nat.eqb_refl. apply IH. auto.
Qed.

(** ** Comparison functions *)
Definition masked (data mask : N) : Prop := N.land data mask = data.

Lemma byte_ternary_eq data mask key : masked data mask ->
  ((data =? N.land key mask)%N = true <-> byte_ternary data mask key).
Proof.
  intros M. rewrite N.eqb_eq. split.
  - intros E j Hj. rewrite E, N.land_spec, Hj, andb_true_r. auto.
  - intros H. apply N.bits_inj. intros j. rewrite N.land_spec.
    destruct (N.testbit mask j) eqn:E.
    + rewrite andb_true_r. symmetry. apply H. auto.
    + rewrite andb_false_r, <- M, N.land_spec, E, andb_false_r. auto.
Qed.

Definition masked_from (off nbytes : nat) (k : mkey) : Prop :=
  forall i, off <= i < nbytes -> masked (nth i (k_data k) 0%N) (nth i (k_mask k) 0%N).

Lemma ternary_cmp_from_ok key k : forall n off, masked_from off (off + n) k ->
  (ternary_cmp_from n off key k = true <-> ternary_matches_from off (off + n) k key).
Proof.
  induction n as [|n IH]; intros off M; cbn [ternary_cmp_from].
  - split; auto. intros _ i Hi. lia.
  - assert (M0 : masked (nth off (k_data k) 0%N) (nth off (k_mask k) 0%N)) by (apply M; lia).
    pose proof (byte_ternary_eq _ _ (nth off key 0%N) M0) as B.
    assert (M' : masked_from (S off) (S off + n) k) by (intros i Hi; apply M; lia).
    specialize (IH (S off) M').
    destruct (nth off (k_data k) 0 =? N.land (nth off key 0) (nth off (k_mask k) 0))%N.
    + rewrite IH. split.
      * intros H i Hi. destruct (Nat.eq_dec i off) as [->|]; [apply B; auto|apply H; lia].
      * intros H i Hi. apply H; lia.
    + split; [discriminate|]. intros H. apply B. apply H. lia.
Qed.

Lemma be_val_acc_eq l : forall a, be_val_acc a l = (a * 256 ^ N.of_nat (length l) + be_val l)%N.
Proof.
  unfold be_val. induction l as [|b l IH]; intros a; cbn [be_val_acc length].
  - cbn. lia.
  - rewrite (IH (a * 256 + b)%N), (IH (0 * 256 + b)%N), Nat2N.inj_succ, N.pow_succ_r'. lia.
Qed.
Lemma be_val_cons b l : be_val (b :: l) = (b * 256 ^ N.of_nat (length l) + be_val l)%N.
Proof. unfold be_val at 1. cbn [be_val_acc]. rewrite be_val_acc_eq. f_equal. Qed.
Lemma be_val_lt l : bytes_ok l -> (be_val l < 256 ^ N.of_nat (length l))%N.
Proof.
  induction 1 as [|b l H _ IH]; [reflexivity|].
  rewrite be_val_cons. cbn [length]. rewrite Nat2N.inj_succ, N.pow_succ_r'. nia.
Qed.

Lemma slice_cons off w l : off < length l -> slice off (S w) l = nth off l 0%N :: slice (S off) w l.
Proof.
  revert l. unfold slice. induction off as [|off IH]; intros [|x l] H; cbn in H; try lia; auto.
  cbn [skipn nth]. rewrite IH by lia. reflexivity.
Qed.
Lemma slice_length off w l : off + w <= length l -> length (slice off w l) = w.
Proof. intros H. unfold slice. rewrite firstn_length, skipn_length. lia. Qed.
Lemma bytes_ok_slice off w l : bytes_ok l -> bytes_ok (slice off w l).
Proof.
  intros H. apply Forall_forall. intros x Hx. unfold bytes_ok in H. rewrite Forall_forall in H. apply H.
  unfold slice in Hx. rewrite <- (firstn_skipn off l). apply in_or_app. right.
  rewrite <- (firstn_skipn w (skipn off l)). apply in_or_app. left; auto.
Qed.

Lemma memcmp_at_ok a b : bytes_ok a -> bytes_ok b -> forall w off,
  off + w <= length a -> off + w <= length b ->
  memcmp_at w off a b = N.compare (be_val (slice off w a)) (be_val (slice off w b)).
Proof.
  intros Ha Hb. induction w as [|w IH]; intros off La Lb; cbn [memcmp_at]; [reflexivity|].
  rewrite !slice_cons by lia. rewrite !be_val_cons, !slice_length by lia.
  pose proof (be_val_lt _ (bytes_ok_slice (S off) w a Ha)) as A.
  pose proof (be_val_lt _ (bytes_ok_slice (S off) w b Hb)) as B.
  rewrite slice_length in A, B by lia. rewrite IH by lia.
  set (x := nth off a 0%N). set (y := nth off b 0%N).
  set (u := be_val (slice (S off) w a)) in *. set (v := be_val (slice (S off) w b)) in *.
  set (p := (256 ^ N.of_nat w)%N) in *.
  destruct (N.compare_spec x y) as [->|H|H].
  - destruct (N.compare_spec u v) as [->|H|H]; symmetry; [apply N.compare_refl|apply N.compare_lt_iff; lia|apply N.compare_gt_iff; lia].
  - symmetry. apply N.compare_lt_iff. nia.
  - symmetry. apply N.compare_gt_iff. nia.
Qed.

Fixpoint sum_list (l : list nat) : nat := match l with [] => 0 | x :: r => x + sum_list r end.

(** Well-formed internal keys, as produced by the key builder (KeyBuilder files). *)
Definition wf_key (kd : mkind) (nbytes : nat) (k : mkey) : Prop :=
  bytes_ok (k_data k) /\ length (k_data k) = nbytes /\
  match kd with
  | KExact => True
  | KLpm => k_plen k <= 8 * nbytes
  | KTernary => length (k_mask k) = nbytes /\ bytes_ok (k_mask k) /\ masked_from 0 nbytes k
  | KRange => length (k_mask k) = nbytes /\ bytes_ok (k_mask k) /\
              sum_list (k_widths k) <= nbytes /\ masked_from (sum_list (k_widths k)) nbytes k
  end.

Lemma range_cmp_from_ok nbytes key k : bytes_ok (k_data k) -> length (k_data k) = nbytes ->
  bytes_ok (k_mask k) -> length (k_mask k) = nbytes -> bytes_ok key -> length key = nbytes ->
  forall ws off, off + sum_list ws <= nbytes -> masked_from (off + sum_list ws) nbytes k ->
  (range_cmp_from ws nbytes off key k = true <-> range_matches_from ws off nbytes k key).
Proof.
  intros D1 D2 M1 M2 K1 K2. induction ws as [|w ws IH]; intros off L M; cbn [range_cmp_from range_matches_from sum_list] in *.
  - rewrite Nat.add_0_r in *. pose proof (ternary_cmp_from_ok key k (nbytes - off) off) as T.
    replace (off + (nbytes - off)) with nbytes in T by lia. apply T. auto.
  - rewrite !memcmp_at_ok by (auto; lia).
    assert (M' : masked_from (off + w + sum_list ws) nbytes k) by (rewrite <- Nat.add_assoc; auto).
    specialize (IH (off + w) ltac:(lia) M').
    destruct (N.compare_spec (be_val (slice off w key)) (be_val (slice off w (k_data k)))) as [E|E|E];
    destruct (N.compare_spec (be_val (slice off w key)) (be_val (slice off w (k_mask k)))) as [F|F|F];
      try rewrite IH; split; try discriminate; try lia; intros X; try (split; [lia|tauto]); try tauto; lia.
Qed.

Lemma list_cmp_ok kd nbytes key k : kd = KTernary \/ kd = KRange -> wf_key kd nbytes k ->
  bytes_ok key -> length key = nbytes ->
  (list_cmp kd nbytes key k = true <-> key_matches kd nbytes k key).
Proof.
  intros [-> | ->] (D1 & D2 & W) K1 K2; cbn in *.
  - unfold ternary_cmp. apply (ternary_cmp_from_ok key k nbytes 0). tauto.
  - unfold range_cmp. destruct W as (M1 & M2 & S & M).
    apply range_cmp_from_ok; auto.
Qed.

(** ** The doubly linked list *)
Notation content := (list (nat * mkey)).

Fixpoint dseg (es : list lentry) (prev p : option nat) (l : content) (last nxt : option nat) : Prop :=
  match l with
  | [] => p = nxt /\ last = prev
  | (h, k) :: r => p = Some h /\ exists nx, nth_error es h = Some (mkLE (k_prio k) (Some k) prev nx) /\
                   dseg es (Some h) nx r last nxt
  end.

Lemma dseg_app es : forall l1 l2 prev p last nxt,
  dseg es prev p (l1 ++ l2) last nxt <-> exists m q, dseg es prev p l1 m q /\ dseg es m q l2 last nxt.
Proof.
  induction l1 as [|[h k] l1 IH]; intros l2 prev p last nxt; cbn [app dseg].
  - split; [intros H; exists prev, p; auto|]. intros (m & q & [-> ->] & H). auto.
  - split.
    + intros (-> & nx & E & H). apply IH in H. destruct H as (m & q & A & B).
      exists m, q. split; auto. split; auto. exists nx; auto.
    + intros (m & q & (-> & nx & E & A) & B). split; auto. exists nx. split; auto.
      apply IH. exists m, q; auto.
Qed.

Lemma dseg_frame es i x : forall l prev p last nxt, ~ In i (map fst l) ->
  dseg es prev p l last nxt -> dseg (list_set es i x) prev p l last nxt.
Proof.
  induction l as [|[h k] l IH]; intros prev p last nxt Hn; cbn [dseg map fst] in *; auto.
  intros (-> & nx & E & H). split; auto. exists nx. split; [|apply IH; auto; intros X; apply Hn; right; auto].
  rewrite nth_error_list_set_neq; auto. intros ->. apply Hn. left; auto.
Qed.

Lemma dseg_in_bound es : forall l prev p last nxt, dseg es prev p l last nxt ->
  forall h k, In (h, k) l -> h < length es.
Proof.
  induction l as [|[h k] l IH]; intros prev p last nxt H h' k' I; [destruct I|].
  destruct H as (-> & nx & E & H). destruct I as [I|I].
  - injection I as -> ->. apply nth_error_Some. congruence.
  - eapply IH; eauto.
Qed.

Lemma dseg_first es l prev p last nxt : dseg es prev p l last nxt ->
  p = match l with [] => nxt | (h, _) :: _ => Some h end.
Proof. destruct l as [|[h k] l]; cbn; intros H; tauto. Qed.

(** Changing the [prev] pointer of the first element. *)
Lemma dseg_set_prev es l prev prev' p last : dseg es prev p l last None ->
  NoDup (map fst l) ->
  dseg (set_prev_opt es p prev') prev' p l
       (match l with [] => prev' | _ => last end) None.
Proof.
  destruct l as [|[h k] l]; cbn [dseg].
  - intros [-> ->] _. auto.
  - intros (-> & nx & E & H) ND. cbn [set_prev_opt]. unfold set_prev. rewrite E. cbn [le_prio le_key le_next].
    split; auto. exists nx. split.
    + apply nth_error_list_set_eq. apply nth_error_Some. congruence.
    + apply dseg_frame; auto. cbn in ND. inversion ND; auto.
Qed.

Lemma set_prev_opt_frame es p prev' l a b c d : (forall i, p = Some i -> ~ In i (map fst l)) ->
  dseg es a b l c d -> dseg (set_prev_opt es p prev') a b l c d.
Proof.
  intros Hp H. destruct p as [i|]; cbn; auto. unfold set_prev. destruct (nth_error es i); auto.
  apply dseg_frame; auto.
Qed.

(** ** Content *)
Definition csorted (a : content) : Prop := smap_ok Nat.ltb a.

Lemma nat_irrefl a : Nat.ltb a a = false. Proof. apply Nat.ltb_irrefl. Qed.
Lemma nat_trans a b c : Nat.ltb a b = true -> Nat.ltb b c = true -> Nat.ltb a c = true.
Proof. rewrite !Nat.ltb_lt. lia. Qed.
Lemma nat_total a b : Nat.ltb a b = false -> Nat.ltb b a = false -> a = b.
Proof. rewrite !Nat.ltb_ge. lia. Qed.

Lemma sorted_NoDup {V} (a : list (nat * V)) : smap_ok Nat.ltb a -> NoDup (map fst a).
Proof.
  induction 1 as [|[h k] a H IH F]; cbn; constructor; auto.
  intros I. apply in_map_iff in I. destruct I as ([h' k'] & E & I). cbn in E. subst.
  rewrite Forall_forall in F. specialize (F _ I). cbn [fst] in F. rewrite Nat.ltb_irrefl in F. discriminate.
Qed.

Lemma csorted_app {V} (a b : list (nat * V)) : smap_ok Nat.ltb (a ++ b) ->
  smap_ok Nat.ltb a /\ smap_ok Nat.ltb b /\ (forall h k h' k', In (h, k) a -> In (h', k') b -> h < h').
Proof.
  induction a as [|[h k] a IH]; cbn.
  - intros H. split; [constructor|]. split; auto. intros ? ? ? ? [].
  - intros H. apply StronglySorted_inv in H. destruct H as [H F]. destruct (IH H) as (A & B & C).
    rewrite Forall_forall in F. split; [|split; auto].
    + constructor; auto. apply Forall_forall. intros x Hx. apply F. apply in_or_app; auto.
    + intros h1 k1 h2 k2 [I|I] J; [|eapply C; eauto].
      injection I as -> ->. assert (X : In (h2, k2) (a ++ b)) by (apply in_or_app; auto).
      apply F in X. cbn [fst] in X. apply Nat.ltb_lt in X. auto.
Qed.

(** If all handles below [h] are present and [h] is not, the content splits at [h]. *)
Lemma content_split {V} : forall h (a : list (nat * V)), smap_ok Nat.ltb a ->
  (forall i, i < h -> In i (map fst a)) -> ~ In h (map fst a) ->
  exists a1 a2, a = a1 ++ a2 /\ map fst a1 = seq 0 h /\ (forall i k, In (i, k) a2 -> h < i).
Proof.
  intros h a So.
  assert (G : forall h b a, smap_ok Nat.ltb a -> (forall i k, In (i, k) a -> b <= i) ->
     (forall i, b <= i < b + h -> In i (map fst a)) -> ~ In (b + h) (map fst a) ->
     exists a1 a2, a = a1 ++ a2 /\ map (@fst nat V) a1 = seq b h /\ (forall i k, In (i, k) a2 -> b + h < i)).
  { clear a So h. induction h as [|h IH]; intros b a So Lo Hi Hn.
    - exists [], a. repeat split; auto. intros i k I. pose proof (Lo _ _ I).
      assert (i <> b); [|lia]. intros ->. apply Hn. rewrite Nat.add_0_r. apply in_map_iff. exists (b, k); auto.
    - destruct a as [|[x k] a]; [exfalso; destruct (Hi b); lia|].
      apply StronglySorted_inv in So. destruct So as [So F]. rewrite Forall_forall in F.
      assert (x = b) as ->.
      { destruct (Hi b ltac:(lia)) as [E|I]; auto. exfalso. apply in_map_iff in I.
        destruct I as ([y k'] & E & I). cbn in E. subst y. specialize (F _ I). cbn [fst] in F.
        apply Nat.ltb_lt in F. specialize (Lo x k (or_introl eq_refl)). lia. }
      destruct (IH (S b) a So) as (a1 & a2 & E1 & E2 & E3).
      + intros i k' I. specialize (F _ I). cbn [fst] in F. apply Nat.ltb_lt in F. lia.
      + intros i Hi'. destruct (Hi i ltac:(lia)) as [E|I]; auto. cbn in E. lia.
      + intros I. apply Hn. right. replace (b + S h) with (S b + h) by lia. auto.
      + exists ((b, k) :: a1), a2. subst a. split; auto. cbn. rewrite E2. split; auto.
        intros i k' I. specialize (E3 i k' I). lia. }
  intros Hi Hn. apply (G h 0 a); [auto|intros; lia|intros i Hi2; apply Hi; lia|auto].
Qed.

Lemma smap_put_split {V} (a1 a2 : list (nat * V)) h v :
  (forall i k, In (i, k) a1 -> i < h) -> (forall i k, In (i, k) a2 -> h < i) ->
  smap_put Nat.ltb h v (a1 ++ a2) = a1 ++ (h, v) :: a2.
Proof.
  intros H1 H2. induction a1 as [|[i k] a1 IH]; cbn [app smap_put].
  - destruct a2 as [|[j k] a2]; cbn [smap_put]; auto. assert (h < j) by (apply (H2 j k); left; auto).
    destruct (Nat.ltb_spec j h); [lia|]. destruct (Nat.ltb_spec h j); [auto|lia].
  - assert (i < h) by (apply (H1 i k); left; auto).
    destruct (Nat.ltb_spec i h); [|lia]. rewrite IH; auto. intros; apply (H1 i0 k0); right; auto.
Qed.

Lemma smap_del_split {V} (a1 a2 : list (nat * V)) h v : smap_ok Nat.ltb (a1 ++ (h, v) :: a2) ->
  smap_del Nat.ltb h (a1 ++ (h, v) :: a2) = a1 ++ a2.
Proof.
  induction a1 as [|[i k] a1 IH]; cbn [app smap_del].
  - rewrite Nat.ltb_irrefl. auto.
  - intros So. apply StronglySorted_inv in So. destruct So as [So F]. rewrite Forall_forall in F.
    assert (L : i < h). { assert (X : In (h, v) (a1 ++ (h, v) :: a2)) by (apply in_or_app; right; left; auto).
      apply F in X. cbn [fst] in X. apply Nat.ltb_lt in X; auto. }
    destruct (Nat.ltb_spec i h); [|lia]. rewrite IH; auto.
Qed.

(** ** Representation invariant *)
Section Inv.
Variables (cmp : list N -> mkey -> bool) (keq : mkey -> mkey -> bool).

Definition cmatch (key : list N) (k : mkey) : Prop := cmp key k = true.

Record elR (size : nat) (enable : bool) (l : elist) (a : content) : Prop := {
  er_sorted : csorted a;
  er_len : length (el_entries l) = size;
  er_list : exists last, dseg (el_entries l) None (el_head l) a last None;
  er_count : el_count l = length a;
  er_enable : el_enable l = enable;
  er_use : el_use l = el_use_cache enable (length a);
  er_cache : forall key h, cache_find (el_cache l) key = Some h -> best_match (cmatch key) a (Some h);
  er_cache_use : el_use l = false -> el_cache l = [] }.

Lemma elR_new size enable : elR size enable (el_new size enable) [].
Proof.
  split; cbn; auto.
  - constructor.
  - apply repeat_length.
  - exists None. auto.
  - unfold el_use_cache. cbn. rewrite andb_false_r. auto.
  - discriminate.
Qed.

(** *** Scan *)
Definition best_of (key : list N) (a : content) (best : option (Z * nat)) : Prop :=
  match best with
  | None => forall h k, In (h, k) a -> cmp key k = false
  | Some (mp, i) => exists k, In (i, k) a /\ k_prio k = mp /\ cmp key k = true /\
      forall h' k', In (h', k') a -> cmp key k' = true -> (mp < k_prio k')%Z \/ (mp = k_prio k' /\ i <= h')
  end.

Lemma el_scan_ok es key : forall a2 a1 fuel prev p last best,
  smap_ok Nat.ltb (a1 ++ a2) -> dseg es prev p a2 last None -> length a2 < fuel -> best_of key a1 best ->
  exists r, el_scan cmp fuel es p key best = Some r /\ best_match (cmatch key) (a1 ++ a2) r.
Proof.
  induction a2 as [|[h k] a2 IH]; intros a1 fuel prev p last best S D F B.
  - destruct D as [-> _]. destruct fuel; cbn [el_scan];
    (eexists; split; [reflexivity|]); rewrite app_nil_r; (destruct best as [[mp i]|]; cbn in *;
     [destruct B as (k & I & <- & M & Mn); exists k; repeat split; auto
     |intros h k I M; unfold cmatch in M; rewrite (B h k I) in M; discriminate]).
  - destruct D as (-> & nx & E & D). destruct fuel as [|fuel]; [cbn in F; lia|].
    cbn [el_scan]. rewrite E.
    replace (a1 ++ (h, k) :: a2) with ((a1 ++ [(h, k)]) ++ a2) in * by (rewrite <- app_assoc; auto).
    eapply IH; eauto. { cbn in F; lia. }
    assert (Lt : forall h' k', In (h', k') a1 -> h' < h).
    { intros h' k' I. apply csorted_app in S. destruct S as (S & _ & _). apply csorted_app in S.
      destruct S as (_ & _ & C). eapply C; eauto. left; auto. }
    destruct best as [[mp i]|]; cbn [best_of] in B.
    + destruct B as (kb & I & P & M & Mn). destruct (Z.leb_spec mp (k_prio k)) as [Le|Gt].
      * exists kb. repeat split; auto. { apply in_or_app; auto. }
        intros h' k' I' M'. apply in_app_or in I'. destruct I' as [I'|[I'|[]]]; auto.
        injection I' as <- <-. specialize (Lt _ _ I). lia.
      * destruct (cmp key k) eqn:C.
        -- exists k. repeat split; auto. { apply in_or_app; right; left; auto. }
           intros h' k' I' M'. apply in_app_or in I'. destruct I' as [I'|[I'|[]]].
           ++ left. destruct (Mn _ _ I' M'); lia.
           ++ injection I' as <- <-. right; auto.
        -- exists kb. repeat split; auto. { apply in_or_app; auto. }
           intros h' k' I' M'. apply in_app_or in I'. destruct I' as [I'|[I'|[]]]; auto.
           injection I' as <- <-. congruence.
    + destruct (cmp key k) eqn:C.
      * exists k. repeat split; auto. { apply in_or_app; right; left; auto. }
        intros h' k' I' M'. apply in_app_or in I'. destruct I' as [I'|[I'|[]]].
        -- rewrite (B _ _ I') in M'. discriminate.
        -- injection I' as <- <-. right; auto.
      * intros h' k' I'. apply in_app_or in I'. destruct I' as [I'|[I'|[]]]; eauto.
        injection I' as <- <-. auto.
Qed.

Lemma content_len size enable l a : elR size enable l a -> length a <= size.
Proof.
  intros R. destruct (er_list _ _ _ _ R) as (last & D).
  rewrite <- (map_length fst), <- (seq_length size 0). apply NoDup_incl_length.
  - apply sorted_NoDup, (er_sorted _ _ _ _ R).
  - intros x I. apply in_map_iff in I. destruct I as ([h k] & <- & I). apply in_seq. cbn.
    split; [lia|]. rewrite <- (er_len _ _ _ _ R). eapply dseg_in_bound; eauto.
Qed.

Lemma scan_head_ok size enable l a key : elR size enable l a ->
  exists r, el_scan cmp (S (length (el_entries l))) (el_entries l) (el_head l) key None = Some r /\
            best_match (cmatch key) a r.
Proof.
  intros R. destruct (er_list _ _ _ _ R) as (last & D).
  apply (el_scan_ok (el_entries l) key a [] _ None (el_head l) last None); auto.
  - apply R.
  - rewrite (er_len _ _ _ _ R). pose proof (content_len _ _ _ _ R). lia.
  - intros h k [].
Qed.

(** *** Cache *)
Lemma cache_find_remove c key key' h : cache_find (cache_remove c key) key' = Some h ->
  exists h', cache_find c key' = Some h' /\ (key <> key' -> h = h').
Proof.
  induction c as [|[k x] c IH]; cbn [cache_remove cache_find]; [discriminate|].
  destruct (bytes_eqb k key) eqn:E.
  - apply bytes_eqb_eq in E. subst k. intros H. destruct (bytes_eqb key key') eqn:F.
    + apply bytes_eqb_eq in F. subst. eexists; split; eauto. congruence.
    + eauto.
  - cbn [cache_find]. destruct (bytes_eqb k key'); eauto.
Qed.

Lemma cache_lookup_find c key hit c' : cache_lookup c key = (hit, c') ->
  hit = cache_find c key /\ forall k h, cache_find c' k = Some h -> cache_find c k = Some h.
Proof.
  unfold cache_lookup. destruct (cache_find c key) as [h|] eqn:E; intros H; injection H as <- <-; split; auto.
  intros k h'. cbn [cache_find]. destruct (bytes_eqb key k) eqn:F.
  - apply bytes_eqb_eq in F. subst k. intros H; injection H as ->. auto.
  - intros H. apply cache_find_remove in H. destruct H as (h2 & H & X). rewrite H. f_equal. symmetry. apply X.
    intros ->. assert (Y : bytes_eqb k k = true) by (apply bytes_eqb_eq; auto). congruence.
Qed.

Lemma cache_find_removelast c key h : cache_find (removelast c) key = Some h -> cache_find c key = Some h.
Proof.
  induction c as [|[k x] c IH]; cbn [removelast]; [discriminate|].
  destruct c as [|e c]; [discriminate|]. cbn [cache_find]. destruct (bytes_eqb k key); auto.
Qed.

Lemma cache_add_find c key h k h' : cache_find (cache_add c key h) k = Some h' ->
  cache_find c k = Some h' \/ (k = key /\ h' = h).
Proof.
  unfold cache_add. destruct (cache_find c key) eqn:E; auto.
  cbn [cache_find]. destruct (bytes_eqb key k) eqn:F.
  - apply bytes_eqb_eq in F. intros H; injection H as ->. auto.
  - intros H. left. destruct (length c =? cache_size); auto. apply cache_find_removelast; auto.
Qed.

Definition el_with_cache (l : elist) (c : cache) : elist :=
  mkEL (el_head l) (el_entries l) (el_count l) (el_enable l) (el_use l) c.

Lemma elR_cache size enable l a c : elR size enable l a ->
  (forall key h, cache_find c key = Some h -> best_match (cmatch key) a (Some h)) ->
  (el_use l = false -> c = []) -> elR size enable (el_with_cache l c) a.
Proof. intros R H U. split; try apply R; auto. Qed.

(** *** Operations *)
Lemma el_lookup_ok size enable l a key : elR size enable l a ->
  exists l' r, el_lookup cmp l key = Some (l', r) /\ elR size enable l' a /\ best_match (cmatch key) a r.
Proof.
  intros R. unfold el_lookup.
  destruct (scan_head_ok _ _ _ _ key R) as (r & Es & Br).
  destruct (el_use l) eqn:U.
  - destruct (cache_lookup (el_cache l) key) as [hit c1] eqn:C. apply cache_lookup_find in C. destruct C as [Hh Hc].
    assert (R1 : forall k h, cache_find c1 k = Some h -> best_match (cmatch k) a (Some h))
      by (intros k h X; apply (er_cache _ _ _ _ R); auto).
    destruct hit as [h|].
    + do 2 eexists; split; [reflexivity|]. split.
      * rewrite <- U. apply elR_cache; auto. congruence.
      * apply (er_cache _ _ _ _ R). auto.
    + rewrite Es. destruct r as [h|]; (do 2 eexists; split; [reflexivity|]; split; [|auto]); rewrite <- U;
        apply elR_cache; auto; try congruence.
      intros k h' X. apply cache_add_find in X. destruct X as [X|[-> ->]]; auto.
  - rewrite Es. destruct r as [h|]; (do 2 eexists; split; [reflexivity|]; split; [|auto]); rewrite <- U;
      apply (elR_cache _ _ l a (el_cache l) R); apply R.
Qed.

Lemma el_find_ok es key : forall a fuel prev p last,
  dseg es prev p a last None -> length a < fuel ->
  exists r, el_find keq fuel es p key = Some r /\
    match r with
    | Some h => exists k, In (h, k) a /\ k_prio k = k_prio key /\ keq k key = true
    | None => forall h k, In (h, k) a -> k_prio k = k_prio key -> keq k key = false
    end.
Proof.
  induction a as [|[h k] a IH]; intros fuel prev p last D F.
  - destruct D as [-> _]. destruct fuel; cbn; eexists; split; try reflexivity; intros h k [].
  - destruct D as (-> & nx & E & D). destruct fuel as [|fuel]; [cbn in F; lia|].
    cbn [el_find]. rewrite E. destruct (Z.eqb_spec (k_prio k) (k_prio key)) as [P|P];
      [destruct (keq k key) eqn:Q|]; cbn [andb].
    + eexists; split; [reflexivity|]. exists k. split; [left; auto|auto].
    + destruct (IH fuel _ _ _ D ltac:(cbn in F; lia)) as (r & Er & X). exists r. split; auto.
      destruct r as [h'|].
      * destruct X as (k' & I & Y). exists k'. split; [right; auto|auto].
      * intros h' k' [I|I] P'; [injection I as <- <-; auto|eauto].
    + destruct (IH fuel _ _ _ D ltac:(cbn in F; lia)) as (r & Er & X). exists r. split; auto.
      destruct r as [h'|].
      * destruct X as (k' & I & Y). exists k'. split; [right; auto|auto].
      * intros h' k' [I|I] P'; [injection I as <- <-; congruence|eauto].
Qed.

Lemma el_find_entry_ok size enable l a key : elR size enable l a ->
  exists r, el_find_entry keq l key = Some r /\
    match r with
    | Some h => exists k, In (h, k) a /\ k_prio k = k_prio key /\ keq k key = true
    | None => forall h k, In (h, k) a -> k_prio k = k_prio key -> keq k key = false
    end.
Proof.
  intros R. destruct (er_list _ _ _ _ R) as (last & D). unfold el_find_entry.
  eapply el_find_ok; eauto. rewrite (er_len _ _ _ _ R). pose proof (content_len _ _ _ _ R). lia.
Qed.

Lemma set_prev_opt_length es p q : length (set_prev_opt es p q) = length es.
Proof. destruct p; cbn; auto. unfold set_prev. destruct (nth_error es n); auto. apply list_set_length. Qed.
Lemma set_next_length es p q : length (set_next es p q) = length es.
Proof. unfold set_next. destruct (nth_error es p); auto. apply list_set_length. Qed.

Lemma el_cache_reset size enable l a c : elR size enable l a -> c = (if el_use l then [] else el_cache l) ->
  c = [].
Proof. intros R ->. destruct (el_use l) eqn:U; auto. apply R; auto. Qed.

Lemma el_add_ok size enable l a k h : elR size enable l a -> h < size ->
  (forall i, i < h -> In i (map fst a)) -> ~ In h (map fst a) ->
  exists l', el_add l k h = Some l' /\ elR size enable l' (smap_put Nat.ltb h k a).
Proof.
  intros R Hs Hlow Hfree. unfold el_add. rewrite (er_len _ _ _ _ R).
  destruct (Nat.ltb_spec h size) as [_|]; [|lia].
  destruct (content_split h a (er_sorted _ _ _ _ R) Hlow Hfree) as (a1 & a2 & Ea & E1 & E2).
  assert (L1 : forall i k', In (i, k') a1 -> i < h).
  { intros i k' I. assert (J : In i (seq 0 h)) by (rewrite <- E1; apply in_map_iff; exists (i, k'); auto).
    apply in_seq in J. lia. }
  assert (Sp : smap_put Nat.ltb h k a = a1 ++ (h, k) :: a2) by (subst a; apply smap_put_split; auto).
  assert (So : csorted (smap_put Nat.ltb h k a))
    by (apply smap_put_ok; eauto using nat_trans, nat_total; apply R).
  assert (Ln : length (smap_put Nat.ltb h k a) = S (length a)).
  { rewrite Sp, Ea, !app_length. cbn. lia. }
  destruct (er_list _ _ _ _ R) as (last & D). rewrite Ea in D.
  apply dseg_app in D. destruct D as (m & q & D1 & D2).
  assert (F2 : ~ In h (map fst a2)).
  { intros I. apply in_map_iff in I. destruct I as ([i k'] & <- & I). apply E2 in I. cbn in I. lia. }
  assert (N2 : NoDup (map fst a2)).
  { pose proof (er_sorted _ _ _ _ R) as S. rewrite Ea in S. apply csorted_app in S. apply sorted_NoDup. tauto. }
  assert (Q2 : forall i, q = Some i -> h < i).
  { intros i ->. apply dseg_first in D2. destruct a2 as [|[j kj] a2]; [discriminate|].
    injection D2 as ->. apply (E2 j kj). left; auto. }
  destruct h as [|hp].
  - destruct a1; [|discriminate]. cbn [app dseg] in *. destruct D1 as [D1 ->]. subst q.
    eexists; split; [reflexivity|]. split; cbn [el_entries el_head el_count el_enable el_use el_cache]; auto.
    + rewrite set_prev_opt_length, list_set_length. apply R.
    + rewrite Sp. eexists. cbn [dseg]. split; auto. exists (el_head l). split.
      * destruct (el_head l) as [i|] eqn:Eh; cbn [set_prev_opt].
        -- unfold set_prev. destruct (nth_error (list_set (el_entries l) 0 _) i); [|apply nth_error_list_set_eq; rewrite (er_len _ _ _ _ R); lia].
           rewrite nth_error_list_set_neq by (specialize (Q2 i eq_refl); lia).
           apply nth_error_list_set_eq; rewrite (er_len _ _ _ _ R); lia.
        -- apply nth_error_list_set_eq; rewrite (er_len _ _ _ _ R); lia.
      * eapply dseg_set_prev; eauto. apply dseg_frame; eauto.
    + rewrite Ln, (er_count _ _ _ _ R). auto.
    + apply R.
    + rewrite Ln, (er_enable _ _ _ _ R), (er_count _ _ _ _ R). auto.
    + rewrite (el_cache_reset _ _ _ _ _ R eq_refl). discriminate.
    + intros _. rewrite (el_cache_reset _ _ _ _ _ R eq_refl). auto.
  - (* a1 ends with hp *)
    assert (X : exists b kp, a1 = b ++ [(hp, kp)] /\ ~ In hp (map fst b)).
    { assert (length a1 = S hp) by (rewrite <- (map_length fst), E1, seq_length; auto).
      destruct (exists_last (l := a1)) as (b & [x kp] & ->); [destruct a1; discriminate|].
      rewrite seq_S, map_app in E1. cbn in E1. apply app_inj_tail in E1. destruct E1 as [E1 ->].
      exists b, kp. split; auto. rewrite E1, in_seq. lia. }
    destruct X as (b & kp & -> & Nb). apply dseg_app in D1. destruct D1 as (m1 & q1 & D1 & D1').
    cbn [dseg] in D1'. destruct D1' as (-> & nx & Ehp & -> & ->). rewrite Ehp. cbn [le_next].
    assert (Hhp : hp < size).
    { rewrite <- (er_len _ _ _ _ R). apply nth_error_Some. congruence. }
    eexists; split; [reflexivity|]. split; cbn [el_entries el_head el_count el_enable el_use el_cache]; auto.
    + rewrite set_prev_opt_length, set_next_length, list_set_length. apply R.
    + rewrite Sp. rewrite <- app_assoc. cbn [app].
      set (es1 := list_set (el_entries l) (S hp) (mkLE (k_prio k) (Some k) (Some hp) q)).
      assert (Eh1 : nth_error es1 hp = Some (mkLE (k_prio kp) (Some kp) m1 q)).
      { unfold es1. rewrite nth_error_list_set_neq by lia. auto. }
      unfold set_next. rewrite Eh1. cbn [le_prio le_key le_prev].
      set (es2 := list_set es1 hp _).
      assert (Lo : forall i kk, In (i, kk) b -> i < S hp) by (intros; apply (L1 i kk); apply in_or_app; auto).
      eexists. apply dseg_app. exists m1, (Some hp). split.
      * apply set_prev_opt_frame.
        { intros i Hi I. apply Q2 in Hi. apply in_map_iff in I. destruct I as ([i' kk] & <- & I).
          apply Lo in I. cbn in *. lia. }
        apply dseg_frame; auto. unfold es1. apply dseg_frame; auto.
        intros I. apply in_map_iff in I. destruct I as ([i' kk] & Eq & I). cbn in Eq. subst i'.
        apply Lo in I. lia.
      * cbn [dseg]. split; auto. exists (Some (S hp)). split.
        { assert (Y : nth_error es2 hp = Some (mkLE (k_prio kp) (Some kp) m1 (Some (S hp)))).
          { apply nth_error_list_set_eq. unfold es1. rewrite list_set_length, (er_len _ _ _ _ R). auto. }
          destruct q as [i|]; cbn [set_prev_opt]; auto. unfold set_prev. destruct (nth_error es2 i); auto.
          rewrite nth_error_list_set_neq; auto. specialize (Q2 i eq_refl). lia. }
        split; auto. exists q. split.
        { assert (Y : nth_error es2 (S hp) = Some (mkLE (k_prio k) (Some k) (Some hp) q)).
          { unfold es2. rewrite nth_error_list_set_neq by lia. apply nth_error_list_set_eq.
            rewrite (er_len _ _ _ _ R). auto. }
          destruct q as [i|]; cbn [set_prev_opt]; auto. unfold set_prev. destruct (nth_error es2 i); auto.
          rewrite nth_error_list_set_neq; auto. specialize (Q2 i eq_refl). lia. }
        eapply dseg_set_prev; eauto. unfold es2. apply dseg_frame.
        { intros I. apply in_map_iff in I. destruct I as ([i' kk] & Eq & I). cbn in Eq. subst i'.
          apply E2 in I. lia. }
        unfold es1. apply dseg_frame; eauto.
    + rewrite Ln, (er_count _ _ _ _ R). auto.
    + apply R.
    + rewrite Ln, (er_enable _ _ _ _ R), (er_count _ _ _ _ R). auto.
    + rewrite (el_cache_reset _ _ _ _ _ R eq_refl). discriminate.
    + intros _. rewrite (el_cache_reset _ _ _ _ _ R eq_refl). auto.
Qed.

Lemma el_delete_ok size enable l a k h : elR size enable l a -> In (h, k) a ->
  (forall h' k', In (h', k') a -> k_prio k' = k_prio k -> keq k' k = true -> h' = h) ->
  keq k k = true ->
  exists l', el_delete keq l k = Some l' /\ elR size enable l' (smap_del Nat.ltb h a).
Proof.
  intros R I U Rf. unfold el_delete.
  destruct (el_find_entry_ok _ _ _ _ k R) as (r & Er & X). rewrite Er.
  destruct r as [h'|].
  2:{ rewrite (X h k I eq_refl) in Rf. discriminate. }
  destruct X as (k' & I' & P' & Q'). assert (h' = h) as -> by (eapply U; eauto).
  destruct (in_split _ _ I) as (a1 & a2 & Ea).
  pose proof (er_sorted _ _ _ _ R) as So. rewrite Ea in So.
  assert (Sd : smap_del Nat.ltb h a = a1 ++ a2) by (rewrite Ea; apply smap_del_split; auto).
  assert (Sod : csorted (smap_del Nat.ltb h a))
    by (apply smap_del_ok; apply R).
  assert (Ln : length (smap_del Nat.ltb h a) = length a - 1) by (rewrite Sd, Ea, !app_length; cbn; lia).
  destruct (csorted_app _ _ So) as (S1 & S2 & C12).
  pose proof (sorted_NoDup _ S2) as N2. cbn [map fst] in N2. apply NoDup_cons_iff in N2. destruct N2 as [Nh2 N2].
  assert (L1 : forall i kk, In (i, kk) a1 -> i < h) by (intros i kk J; eapply C12; eauto; left; auto).
  assert (L2 : forall i kk, In (i, kk) a2 -> h < i).
  { intros i kk J. apply (StronglySorted_inv) in S2. destruct S2 as [_ F]. rewrite Forall_forall in F.
    apply F in J. cbn [fst] in J. apply Nat.ltb_lt in J. auto. }
  destruct (er_list _ _ _ _ R) as (last & D). rewrite Ea in D.
  apply dseg_app in D. destruct D as (m & q & D1 & D2). cbn [dseg] in D2.
  destruct D2 as (-> & nx & Eh & D2). rewrite Eh. cbn [le_prev le_next].
  assert (Qn : forall i, nx = Some i -> h < i).
  { intros i ->. apply dseg_first in D2. destruct a2 as [|[j kj] a2]; [discriminate|].
    injection D2 as ->. apply (L2 j kj). left; auto. }
  assert (Fin : forall hd es c, c = [] -> length es = size -> (exists last', dseg es None hd (a1 ++ a2) last' None) ->
     elR size enable (mkEL hd es (el_count l - 1) (el_enable l) (el_use_cache (el_enable l) (el_count l - 1))
        c) (smap_del Nat.ltb h a)).
  { intros hd es c -> Le Hd. split; cbn [el_entries el_head el_count el_enable el_use el_cache]; auto.
    - rewrite Sd. auto.
    - rewrite Ln, (er_count _ _ _ _ R). auto.
    - apply R.
    - rewrite Ln, (er_enable _ _ _ _ R), (er_count _ _ _ _ R). auto.
    - discriminate. }
  destruct a1 as [|x0 a1'] eqn:Ea1.
  - cbn [dseg] in D1. destruct D1 as [_ ->].
    eexists; split; [reflexivity|]. apply Fin; [apply (el_cache_reset _ _ _ _ _ R eq_refl)|..].
    { rewrite set_prev_opt_length. apply R. }
    eexists. cbn [app]. eapply dseg_set_prev; eauto.
  - destruct (exists_last (l := x0 :: a1')) as (b & [hp kp] & Eb); [discriminate|].
    rewrite Eb in *. clear Eb Ea1. apply dseg_app in D1. destruct D1 as (m1 & q1 & D1 & D1').
    cbn [dseg] in D1'. destruct D1' as (-> & nxp & Ehp & -> & ->).
    pose proof (sorted_NoDup _ S1) as N1. rewrite map_app in N1. cbn in N1.
    assert (Nb : ~ In hp (map fst b)).
    { intros J. apply NoDup_remove_2 in N1. rewrite app_nil_r in N1. auto. }
    eexists; split; [reflexivity|]. apply Fin; [apply (el_cache_reset _ _ _ _ _ R eq_refl)|..].
    { rewrite set_prev_opt_length, set_next_length. apply R. }
    unfold set_next. rewrite Ehp. cbn [le_prio le_key le_prev].
    set (es1 := list_set (el_entries l) hp _).
    assert (Hhp : hp < length (el_entries l)) by (apply nth_error_Some; congruence).
    assert (Hph : hp < h) by (apply (L1 hp kp); apply in_or_app; right; left; auto).
    eexists. rewrite <- app_assoc. cbn [app]. apply dseg_app. exists m1, (Some hp). split.
    + apply set_prev_opt_frame.
      { intros i Hi J. apply Qn in Hi. apply in_map_iff in J. destruct J as ([i' kk] & <- & J).
        assert (i' < h) by (apply (L1 i' kk); apply in_or_app; auto). cbn in *. lia. }
      apply dseg_frame; auto.
    + cbn [dseg]. split; auto. exists nx. split.
      { assert (Y : nth_error es1 hp = Some (mkLE (k_prio kp) (Some kp) m1 nx))
          by (apply nth_error_list_set_eq; auto).
        destruct nx as [i|]; cbn [set_prev_opt]; auto. unfold set_prev. destruct (nth_error es1 i); auto.
        rewrite nth_error_list_set_neq; auto. specialize (Qn i eq_refl). lia. }
      eapply dseg_set_prev; eauto. unfold es1. apply dseg_frame; eauto.
      intros J. apply in_map_iff in J. destruct J as ([i' kk] & Eq & J). cbn in Eq. subst i'.
      apply L2 in J. lia.
Qed.

Lemma el_clear_ok size enable l a : elR size enable l a -> elR size enable (el_clear l) [].
Proof.
  intros R. split; cbn; auto; try apply R.
  - constructor.
  - exists None. auto.
  - unfold el_use_cache. rewrite (er_enable _ _ _ _ R). auto.
  - discriminate.
Qed.

Lemma el_probe_ok size enable l a key l' r : elR size enable l a -> el_probe l key = (l', r) ->
  elR size enable l' a /\ match r with Some h => best_match (cmatch key) a (Some h) | None => True end.
Proof.
  intros R. unfold el_probe. destruct (el_use l) eqn:U.
  - destruct (cache_lookup (el_cache l) key) as [hit c1] eqn:C. apply cache_lookup_find in C. destruct C as [Hh Hc].
    intros E; injection E as <- <-. split.
    + rewrite <- U. apply elR_cache; auto; [intros; apply (er_cache _ _ _ _ R); auto|congruence].
    + destruct hit; auto. apply (er_cache _ _ _ _ R). auto.
  - intros E; injection E as <- <-. auto.
Qed.

Lemma el_finish_ok size enable l a key : elR size enable l a ->
  exists l' r, el_finish cmp l key = Some (l', r) /\ elR size enable l' a /\ best_match (cmatch key) a r.
Proof.
  intros R. unfold el_finish. destruct (scan_head_ok _ _ _ _ key R) as (r & Es & Br). rewrite Es.
  destruct r as [h|]; (do 2 eexists; split; [reflexivity|]; split; [|auto]); auto.
  apply elR_cache; auto.
  - intros k h' X. destruct (el_use l).
    + apply cache_add_find in X. destruct X as [X|[-> ->]]; auto. apply (er_cache _ _ _ _ R); auto.
    + apply (er_cache _ _ _ _ R); auto.
  - intros U. rewrite U. apply R; auto.
Qed.
End Inv.

Lemma best_match_unique P a r1 r2 : smap_ok Nat.ltb a -> best_match P a r1 -> best_match P a r2 -> r1 = r2.
Proof.
  intros S. destruct r1 as [h1|], r2 as [h2|]; cbn; auto.
  - intros (k1 & I1 & P1 & M1) (k2 & I2 & P2 & M2). f_equal.
    destruct (M1 _ _ I2 P2), (M2 _ _ I1 P1); lia.
  - intros (k1 & I1 & P1 & M1) H. exfalso. eapply H; eauto.
  - intros H (k1 & I1 & P1 & M1). exfalso. eapply H; eauto.
Qed.
