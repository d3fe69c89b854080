(** Proofs about save and restore: restoring a profile and the tables that share it. *)
From Coq Require Import List Arith NArith ZArith Bool Lia Sorted.
From Verif Require Import Base Bits Bytes SMap NMap EntryListModel EntryListProofs MatchUnitModel MatchUnitSpec MatchUnitProofs
  MatchUnitConseq KeyBuilderModel HandleMgrModel HandleMgrSpec HandleMgrProofs ProfileModel ProfileSpec
  ProfileProofs ProfileProofs2 ProfileProofs3 ProfileProofs4 SerialModel SerialSpec SerialProofs SerialProofs2 SerialProofs3.
Import ListNotations.

Lemma sorted_before {pre h hs} : StronglySorted lt (pre ++ h :: hs) -> Forall (fun i => i < h) pre.
Proof.
  induction pre as [|x pre IH]; intros So; [constructor|]. cbn in So. inversion So as [|? ? S1 S2]; subst.
  constructor; auto. rewrite Forall_forall in S2. apply S2, in_or_app. right. left. auto.
Qed.
Lemma notin_before pre h : Forall (fun i => i < h) pre -> ~ In h pre.
Proof. intros P X. rewrite Forall_forall in P. specialize (P _ X). lia. Qed.

(** ** Members *)
Lemma w_members_ok ents : forall hs, (forall i, In i hs -> i < length ents) ->
  exists ws, w_members ents hs = Some ws.
Proof.
  induction hs as [|h hs IH]; intros L; cbn [w_members]; [eauto|].
  destruct (nthx ents h _ eq_refl (L h (or_introl eq_refl))) as (e & ->).
  destruct (IH (fun i Hi => L i (or_intror Hi))) as (ws & ->). eauto.
Qed.

Lemma members_ok ents : forall hs ws pre mh es tp r, w_members ents hs = Some ws ->
  Rw mh (mkA (rev pre) tp) -> (pre = [] -> tp = 0) -> first_unset mh = 0 -> StronglySorted lt (pre ++ hs) ->
  length es = length ents ->
  (forall i, In i pre -> nth_error es i = nth_error ents i) ->
  (forall i, ~ In i pre -> i < length ents -> nth_error es i = Some no_entry) ->
  exists mh' es' tp', rd_members (length hs) mh es (ws ++ r) = Some (mh', es', r) /\
    Rw mh' (mkA (rev (pre ++ hs)) tp') /\ first_unset mh' = 0 /\ length es' = length ents /\
    (forall i, In i (pre ++ hs) -> nth_error es' i = nth_error ents i).
Proof.
  induction hs as [|h hs IH]; intros ws pre mh es tp r W Rh Tp Fu So Le Ep En; cbn [w_members] in W.
  - injection W as <-. cbn. exists mh, es, tp. rewrite app_nil_r. auto.
  - destruct (nth_error ents h) as [[fn data]|] eqn:Eh; [|discriminate].
    destruct (w_members ents hs) as [b|] eqn:Wb; [|discriminate].
    assert (X : ws = w_nat h :: w_action (TableModel.mkA (Some fn) data None) ++ b) by (cbn [fst snd] in W; congruence).
    clear W. subst ws.
    pose proof (sorted_before So) as P. pose proof (notin_before _ _ P) as NI.
    destruct (Rw_set mh _ h Rh) as (mh1 & Sh & Rh1 & Fu1); auto.
    { cbn. rewrite <- in_rev. auto. } { intros ->. cbn. apply Tp. destruct P; auto. lia. }
    assert (Hl : h < length ents) by (apply nth_error_Some; congruence).
    cbn [length rd_members]. rewrite <- app_comm_cons, rd_w_nat, Sh, (En h NI Hl), <- app_assoc.
    rewrite rd_w_action by (cbn; discriminate). cbn [TableModel.a_fn TableModel.a_data TableModel.a_next snd no_entry app fst].
    destruct (IH b (pre ++ [h]) mh1 (list_set es h (fn, data)) (Nat.max tp (S h)) r eq_refl) as (mh' & es' & tp' & E & A1 & A2 & A3 & A4).
    + rewrite rev_app_distr. exact Rh1.
    + intros X. destruct pre; discriminate.
    + exact Fu1.
    + rewrite <- app_assoc. exact So.
    + rewrite list_set_length. auto.
    + intros i Hi. apply in_app_or in Hi. destruct Hi as [Hi|[<-|[]]].
      * rewrite nth_error_list_set_neq by (intros ->; auto). auto.
      * rewrite nth_error_list_set_eq by lia. auto.
    + intros i Hi Hl'. rewrite nth_error_list_set_neq by (intros ->; apply Hi, in_or_app; right; left; auto).
      apply En; auto. intros X. apply Hi, in_or_app. auto.
    + exists mh', es', tp'. rewrite <- app_assoc in A1, A4. auto.
Qed.

(** ** Counts *)
Lemma rd_list_ok l : forall r, rd_list (length l) (map w_N l ++ r) = Some (l, r).
Proof.
  induction l as [|x l IH]; intros r; cbn [length rd_list map app]; auto. rewrite rd_w_N, IH. reflexivity.
Qed.

(** ** Groups *)
Lemma set_ins_last x : forall l, Forall (fun i => i < x) l -> set_ins x l = l ++ [x].
Proof.
  induction l as [|y l IH]; intros F; cbn [set_ins app]; auto. inversion F; subst.
  destruct (Nat.ltb_spec x y); [lia|]. rewrite IH; auto.
Qed.
Lemma rd_group_ok : forall l acc r, StronglySorted lt (acc ++ l) ->
  rd_group (length l) acc (map w_nat l ++ r) = Some (acc ++ l, r).
Proof.
  induction l as [|x l IH]; intros acc r So; cbn [length rd_group map app]; [rewrite app_nil_r; auto|].
  rewrite rd_w_nat. pose proof (sorted_before So) as P.
  destruct (set_mem x acc) eqn:E; [apply set_mem_In in E; exfalso; exact (notin_before _ _ P E)|].
  rewrite set_ins_last by auto. rewrite IH; rewrite <- app_assoc; auto.
Qed.

Lemma w_groups_ok gs : forall hs, (forall i, In i hs -> i < length gs) -> exists ws, w_groups gs hs = Some ws.
Proof.
  induction hs as [|h hs IH]; intros L; cbn [w_groups]; [eauto|].
  destruct (nthx gs h _ eq_refl (L h (or_introl eq_refl))) as (e & ->).
  destruct (IH (fun i Hi => L i (or_intror Hi))) as (ws & ->). eauto.
Qed.

Lemma groups_ok gs : forall n k ws gh gs1 tp r, w_groups gs (seq k n) = Some ws ->
  (forall i l, k <= i < k + n -> nth_error gs i = Some l -> StronglySorted lt l) ->
  Rw gh (mkA (rev (seq 0 k)) tp) -> (k = 0 -> tp = 0) -> first_unset gh = 0 ->
  gs1 = firstn k gs -> k + n <= length gs ->
  exists gh' tp', rd_groups n gh gs1 (ws ++ r) = Some (gh', firstn (k + n) gs, r) /\
    Rw gh' (mkA (rev (seq 0 (k + n))) tp') /\ first_unset gh' = 0.
Proof.
  induction n as [|n IH]; intros k ws gh gs1 tp r W Sg Rh Tp Fu -> Le; cbn [seq w_groups] in W.
  - injection W as <-. cbn. rewrite Nat.add_0_r. eauto.
  - destruct (nth_error gs k) as [l|] eqn:El; [|discriminate].
    destruct (w_groups gs (seq (S k) n)) as [b|] eqn:Wb; [|discriminate]. injection W as <-.
    destruct (Rw_set gh _ k Rh) as (gh1 & Sh & Rh1 & Fu1); auto.
    { cbn. rewrite <- in_rev, in_seq. lia. }
    cbn [rd_groups app]. rewrite rd_w_nat, Sh.
    assert (Lk : length (firstn k gs) = k) by (rewrite firstn_length; lia).
    unfold vec_put. rewrite Lk, Nat.eqb_refl. cbn [app]. rewrite rd_w_nat, <- app_assoc.
    rewrite (rd_group_ok l []) by (apply (Sg k); [lia|auto]).
    assert (X : list_set (firstn k gs ++ [[]]) k l = firstn (S k) gs).
    { apply nth_error_ext. intros i. destruct (Nat.lt_trichotomy i k) as [L|[->|L]].
      - rewrite nth_error_list_set_neq by lia. rewrite nth_error_app1 by lia.
        rewrite <- (firstn_skipn (S k) gs) at 1. rewrite firstn_app.
        rewrite firstn_length. replace (k - Nat.min (S k) (length gs)) with 0 by lia. rewrite firstn_firstn.
        replace (Nat.min k (S k)) with k by lia. cbn [firstn]. rewrite app_nil_r.
        clear - L. revert k gs L. induction i as [|i IH]; intros [|k] [|g gs] L; try lia; cbn; auto. apply (IH k gs). lia.
      - rewrite nth_error_list_set_eq by (rewrite app_length, Lk; cbn; lia).
        clear - El. revert k El. induction gs as [|g gs IH]; intros [|k] E; cbn in *; try discriminate; auto.
      - transitivity (@None (list nat)); [|symmetry]; apply nth_error_None; rewrite ?list_set_length, ?app_length, ?firstn_length; cbn [length]; lia. }
    cbn [app]. rewrite X.
    destruct (IH (S k) b gh1 (firstn (S k) gs) (Nat.max tp (S k)) r Wb) as (gh' & tp' & E & A1 & A2).
    + intros i l' Hi. apply Sg. lia.
    + rewrite seq_S, rev_app_distr. exact Rh1.
    + lia.
    + exact Fu1.
    + reflexivity.
    + lia.
    + exists gh', tp'. replace (k + S n) with (S k + n) by lia. auto.
Qed.

Lemma prefix_seq : forall hs k, StronglySorted lt hs -> (forall i, In i hs -> k <= i) ->
  (forall i j, In i hs -> k <= j < i -> In j hs) -> hs = seq k (length hs).
Proof.
  induction hs as [|h hs IH]; intros k So Ge Cl; cbn; auto. inversion So as [|? ? S1 F]; subst.
  rewrite Forall_forall in F.
  assert (h = k).
  { pose proof (Ge h (or_introl eq_refl)). destruct (Nat.eq_dec h k); auto. exfalso.
    destruct (Cl h k (or_introl eq_refl) ltac:(lia)) as [|X]; [congruence|]. specialize (F _ X). lia. }
  subst h. f_equal. apply IH; auto. intros i j Hi Hj. destruct (Cl i j (or_intror Hi) ltac:(lia)); [lia|auto].
Qed.

(** ** Profiles *)
Lemma HR_iterate h n {A} (f : nat -> option A) : HR h n f ->
  exists hs, hm_iterate h = Some hs /\ StronglySorted lt hs /\ (forall i, In i hs <-> f i <> None) /\ length hs = n.
Proof.
  intros (a & Ra & N & L). destruct (iterate_ok _ _ Ra) as (l & E & So & I). exists l. split; auto. split; auto.
  split. { intros i. rewrite I. apply L. }
  rewrite N. assert (ND : NoDup l) by (apply sorted_lt_NoDup; auto).
  apply Nat.le_antisymm; apply NoDup_incl_length; auto; try (intros x J; apply I; auto). apply (R_nodup _ _ Ra).
Qed.
Lemma HR_of_Rw m hs tp {A} (f : nat -> option A) : Rw m (mkA (rev hs) tp) -> (forall i, In i hs <-> f i <> None) ->
  exists fu, HR (mkHmgr (handles m) fu) (length hs) f.
Proof.
  intros H L. destruct (Rw_fix _ _ H) as (fu & Rf). exists fu. eexists. split; [exact Rf|]. cbn [live].
  split; [rewrite rev_length; auto|]. intros i. rewrite <- in_rev. apply L.
Qed.

Lemma profile_ok p M G c : PR p M G c ->
  (forall g l, G g = Some l -> StronglySorted lt l) ->
  (forall g k, G g <> None -> k < g -> G k <> None) ->
  exists ws, p_save p = Some ws /\ forall r, exists p1 p2, p_restore p_empty (ws ++ r) = Some (p1, r) /\
    psim p1 p2 /\ PR p2 M G c.
Proof.
  intros [Hm Hg Hml Hgl He Hgr Hmc Hgc] Sg Cl.
  destruct (HR_iterate _ _ _ Hm) as (ms & Em & Sm & Im & Lm).
  destruct (HR_iterate _ _ _ Hg) as (gs & Eg & Sgs & Ig & Lg).
  assert (Xg : gs = seq 0 (length gs)).
  { apply prefix_seq; auto; [intros; lia|]. intros i j Hi Hj. apply Ig. eapply Cl; [apply Ig; exact Hi|lia]. }
  assert (Ld : forall i, In i ms -> i < length (p_ents p)).
  { intros i Hi. apply Im in Hi. destruct (M i) as [a|] eqn:E; [|congruence]. apply nth_error_Some. rewrite (He _ _ E). congruence. }
  assert (Lgr : length gs <= length (p_groups p) ).
  { destruct (length gs) as [|n] eqn:E; [lia|]. assert (I : In n gs) by (rewrite Xg; apply in_seq; lia).
    apply Ig in I. destruct (G n) as [l|] eqn:E2; [|congruence].
    assert (n < length (p_groups p)) by (apply nth_error_Some; rewrite (Hgr _ _ E2); congruence). lia. }
  destruct (w_members_ok (p_ents p) ms Ld) as (wm & Wm).
  destruct (w_groups_ok (p_groups p) gs) as (wg & Wg). { intros i Hi. rewrite Xg in Hi. apply in_seq in Hi. lia. }
  unfold p_save. rewrite Em, Wm, Eg, Wg. eexists. split; [reflexivity|]. intros r.
  unfold p_restore. cbn [app p_empty p_ents p_mh p_gh p_groups]. rewrite !rd_w_nat.
  unfold w_counts. cbn [app]. rewrite <- !app_assoc. cbn [app]. rewrite <- !app_assoc. cbn [app]. rewrite <- !app_assoc. cbn [app]. rewrite <- Lm.
  destruct (members_ok (p_ents p) ms wm [] hm_empty (resize [] (length (p_ents p)) no_entry) 0
     (w_nat (length (p_mc p)) :: map w_N (p_mc p) ++ w_nat (length (p_gc p)) :: map w_N (p_gc p) ++ w_nat (p_ng p) :: wg ++ r) Wm)
    as (mh' & es' & tp' & E1 & R1 & F1 & L1 & N1); auto.
  { exact (R_Rw _ _ R_empty). }
  { unfold resize. rewrite firstn_nil. cbn. rewrite Nat.sub_0_r. apply repeat_length. }
  { intros i []. }
  { intros i _ Hi. unfold resize. rewrite firstn_nil. cbn. rewrite Nat.sub_0_r.
    clear - Hi. revert i Hi. induction (length (p_ents p)) as [|n IH]; intros [|i] Hi; try lia; cbn; auto. apply IH. lia. }
  rewrite E1, rd_w_nat, rd_list_ok, rd_w_nat, rd_list_ok, rd_w_nat.
  destruct (groups_ok (p_groups p) (length gs) 0 wg hm_empty [] 0 r) as (gh' & tp2 & E2 & R2 & F2); auto.
  { rewrite <- Xg. exact Wg. }
  { intros i l Hi El. assert (I : In i gs) by (rewrite Xg; apply in_seq; lia). apply Ig in I.
    destruct (G i) as [l'|] eqn:E; [|congruence]. rewrite (Hgr _ _ E) in El. injection El as <-. eauto. }
  { exact (R_Rw _ _ R_empty). }
  rewrite Lg in E2, R2, Xg. rewrite E2. cbn [app] in R1. cbn [Nat.add] in R2.
  destruct (HR_of_Rw _ _ _ M R1 Im) as (fm & Rm). 
  destruct (HR_of_Rw _ (seq 0 (p_ng p)) _ G R2) as (fg & Rg). { rewrite <- Xg. exact Ig. }
  eexists. exists (mkProf (mkHmgr (handles mh') fm) (mkHmgr (handles gh') fg) es' (p_mc p) (p_gc p)
     (firstn (p_ng p) (p_groups p)) (length ms) (p_ng p)).
  split; [reflexivity|]. split; [repeat split|].
  constructor; cbn [p_mh p_gh p_ents p_mc p_gc p_groups p_nm p_ng].
  - exact Rm.
  - rewrite seq_length in Rg. exact Rg.
  - congruence.
  - rewrite firstn_length. lia.
  - intros m a E. rewrite N1; auto. apply Im. congruence.
  - intros g l E. assert (I : In g gs) by (apply Ig; congruence). rewrite Xg in I. apply in_seq in I.
    rewrite <- (Hgr _ _ E). destruct I as [_ I]. clear - I. cbn in I. revert g I.
    generalize (p_groups p) (p_ng p). induction l as [|x l IH]; intros [|n] [|g] I; try lia; cbn; auto. apply IH. lia.
  - auto.
  - auto.
Qed.

(** ** Indirect indices *)
Lemma rd_w_idx x r : (N.of_nat (match x with Mbr m => m | Grp g => g end) < 2 ^ 24)%N ->
  rd_idx (w_idx x ++ r) = Some (x, r).
Proof.
  intros H. unfold rd_idx, w_idx. cbn [app]. rewrite rd_w_N. unfold word_idx.
  assert (Q : forall n, (n < 2 ^ 24)%N -> N.shiftr n 24 = 0%N /\ N.land n 16777215 = n).
  { intros n Hn. rewrite N.shiftr_div_pow2. split; [apply N.div_small; auto|].
    change 16777215%N with (N.ones 24). rewrite N.land_ones. apply N.mod_small; auto. }
  destruct x as [m|g]; cbn [idx_word].
  - destruct (Q _ H) as [-> ->]. cbn. rewrite Nat2N.id. reflexivity.
  - destruct (Q _ H) as [Q1 Q2]. rewrite N.shiftr_lor, N.shiftr_shiftl_l by lia. rewrite Q1.
    rewrite N.land_lor_distr_l, Q2. change (N.shiftl 1 (24 - 24)) with 1%N. change (N.lor 1 0) with 1%N.
    change (N.land (N.shiftl 1 24) 16777215) with 0%N. cbn [N.eqb]. rewrite N.lor_0_l, Nat2N.id. reflexivity.
Qed.

(** ** Tables *)
Lemma inv_restored kd nb size now (t t' : stab idx) : simple_kind kd -> inv kd nb size t -> restored kd now t t' ->
  inv kd nb size t'.
Proof.
  intros K Iv Rst. constructor.
  - intros i e i' e' A B Sk. pose proof (Rst i) as Ri. pose proof (Rst i') as Ri'.
    destruct (slot_of t i) as [e0|] eqn:E0; [|destruct Ri; congruence].
    destruct (slot_of t i') as [e1|] eqn:E1; [|destruct Ri'; congruence].
    destruct Ri as (x & X & Kx & _), Ri' as (y & Y & Kz & _).
    assert (x = e) by congruence. assert (y = e') by congruence. subst x y.
    apply (iv_uniq _ _ _ _ Iv i e0 i' e1 E0 E1). clear - Sk Kx Kz K.
    destruct K as [-> | ->]; unfold key_same, same_key in *; intuition congruence.
  - intros i e A. pose proof (Rst i) as Ri. destruct (slot_of t i) as [e0|] eqn:E0; [|destruct Ri; congruence].
    destruct Ri as (x & X & Kx & _). assert (x = e) by congruence. subst x.
    pose proof (iv_key _ _ _ _ Iv i e0 E0) as Ko. clear - Ko Kx K.
    destruct K as [-> | ->]; unfold key_same, key_ok in *; intuition congruence.
  - intros i A. apply (iv_lt _ _ _ _ Iv). pose proof (Rst i) as Ri. destruct (slot_of t i); [congruence|].
    destruct Ri; congruence.
Qed.

Definition small (x : idx) : Prop := (N.of_nat (match x with Mbr m => m | Grp g => g end) < 2 ^ 24)%N.

Lemma itab_ok c t st d j now : tabR c t (st, d) -> (N.of_nat (ic_size c) <= 2 ^ 24)%N ->
  simple_kind (ic_kd c) -> 0 < ic_nb c ->
  (forall i e, slot_of st i = Some e -> small (s_val e)) -> (forall x, d = Some x -> small x) ->
  exists ws, it_save c j t = Some ws /\ forall r, exists t1 t2 st',
    it_restore c j now (it_new c) (ws ++ r) = Some (t1, r) /\ isim t1 t2 /\ tabR c t2 (st', d) /\
    restored (ic_kd c) now st st'.
Proof.
  intros ((last & M) & Iv & D) HS K Nb Sv Sd. cbn [fst snd] in *.
  destruct (unit_ok w_idx rd_idx (ic_kd c) (ic_nb c) (ic_size c) (ic_cache c) (ic_cache c) now HS K Nb last (it_unit t) st M)
    as (ws & hs & Ws & En & Rs).
  { intros i e r E. apply rd_w_idx. eapply Sv; eauto. }
  unfold it_save. rewrite Ws. eexists. split; [reflexivity|]. intros r.
  unfold it_restore, rd_header. cbn [app]. rewrite Nat.eqb_refl, <- app_assoc. cbn [it_new it_unit].
  edestruct (Rs (match it_def t with None => [WNum 0] | Some x => WNum 1 :: w_idx x end ++ r))
    as (u & v & st' & E & U & M' & Rst & _ & _).
  rewrite E. exists (mkIT u d), (mkIT v d), st'. split.
  { rewrite D. destruct d as [x|]; cbn [app rd_num]; [|reflexivity].
    cbn [Z.eqb]. rewrite rd_w_idx by (apply Sd; auto). reflexivity. }
  split; [split; auto|]. split; [|auto]. split; [exists (last_of now hs); exact M'|].
  split; [cbn; eapply inv_restored; eauto|reflexivity].
Qed.

Definition simple_cfg (c : itcfg) : Prop := simple_kind (ic_kd c) /\ 0 < ic_nb c.

Lemma itabs_ok now : forall cs ts sts j, length ts = length cs -> length sts = length cs ->
  (forall k c t sd, nth_error cs k = Some c -> nth_error ts k = Some t -> nth_error sts k = Some sd -> tabR c t sd) ->
  Forall (fun c => (N.of_nat (ic_size c) <= 2 ^ 24)%N /\ simple_cfg c) cs ->
  (forall k st d, nth_error sts k = Some (st, d) ->
     (forall i e, slot_of st i = Some e -> small (s_val e)) /\ (forall x, d = Some x -> small x)) ->
  exists ws, its_save cs j ts = Some ws /\ forall r, exists ts1 ts2 sts',
    its_restore cs j now (map it_new cs) (ws ++ r) = Some (ts1, r) /\ Forall2 isim ts1 ts2 /\
    length ts2 = length cs /\ length sts' = length cs /\
    (forall k c t sd, nth_error cs k = Some c -> nth_error ts2 k = Some t -> nth_error sts' k = Some sd -> tabR c t sd) /\
    (forall k c st d, nth_error cs k = Some c -> nth_error sts k = Some (st, d) ->
       exists st', nth_error sts' k = Some (st', d) /\ restored (ic_kd c) (now (j + k)) st st').
Proof.
  induction cs as [|c cs IH]; intros [|t ts] [|[st d] sts] j L1 L2 T F Sm; try discriminate; cbn [its_save].
  - eexists. split; [reflexivity|]. intros r. exists [], [], []. cbn. split; auto.
    do 3 (split; [auto|]). split; intros [|k0]; cbn; intros; discriminate.
  - inversion F as [|? ? (Hs & K & Nb) F']; subst.
    destruct (Sm 0 st d eq_refl) as [Sv Sd].
    destruct (itab_ok c t st d j (now j) (T 0 _ _ _ eq_refl eq_refl eq_refl) Hs K Nb Sv Sd) as (wa & Wa & Ra).
    destruct (IH ts sts (S j)) as (wb & Wb & Rb).
    { cbn in L1. lia. } { cbn in L2. lia. }
    { intros k c' t' sd A B C. apply (T (S k)); auto. } { auto. } { intros k. apply (Sm (S k)). }
    rewrite Wa, Wb. eexists. split; [reflexivity|]. intros r. rewrite <- app_assoc. cbn [map its_restore].
    destruct (Ra (wb ++ r)) as (t1 & t2 & st' & E1 & I1 & T1 & R1). rewrite E1.
    destruct (Rb r) as (ts1 & ts2 & sts' & E2 & I2 & La & Lb & T2 & R2). rewrite E2.
    exists (t1 :: ts1), (t2 :: ts2), ((st', d) :: sts'). split; [reflexivity|]. split; [constructor; auto|].
    split; [cbn; auto|]. split; [cbn; auto|]. split.
    + intros [|k] c' t' sd A B C; cbn in A, B, C; [|eapply T2; eauto].
      injection A as <-. injection B as <-. injection C as <-. exact T1.
    + intros [|k] c' st0 d0 A B; cbn in A, B.
      * injection A as <-. injection B as <- <-. exists st'. rewrite Nat.add_0_r. auto.
      * destruct (R2 _ _ _ _ A B) as (st2 & X & Y). exists st2. replace (j + S k) with (S j + k) by lia. auto.
Qed.

Lemma trefs_restored cs now : forall sts sts' j, length sts = length cs -> length sts' = length cs ->
  (forall k c st d, nth_error cs k = Some c -> nth_error sts k = Some (st, d) ->
       exists st', nth_error sts' k = Some (st', d) /\ restored (ic_kd c) (now (j + k)) st st') ->
  forall x, trefs cs sts' x = trefs cs sts x.
Proof.
  induction cs as [|c cs IH]; intros [|[st d] sts] [|[st' d'] sts'] j L1 L2 H x; try discriminate; auto.
  cbn [trefs]. rewrite (IH sts sts' (S j)).
  - f_equal. destruct (H 0 c st d eq_refl eq_refl) as (st0 & A & B). cbn in A. injection A as <- <-.
    unfold tref1. cbn [fst snd]. f_equal. apply cnt_ext. intros i _. unfold slot_is. specialize (B i).
    destruct (slot_of st i); [|destruct B as [-> _]; auto]. destruct B as (e' & -> & _ & -> & _). auto.
  - cbn in L1. lia.
  - cbn in L2. lia.
  - intros k c' st0 d0 A B. destruct (H (S k) c' st0 d0 A B) as (s1 & C & D). exists s1.
    replace (S j + k) with (j + S k) by lia. auto.
Qed.

Section Switch.
Variables (np : nat -> nat) (cs : list itcfg).
Hypothesis CO : cfg_ok cs.
Hypothesis SC : Forall simple_cfg cs.

Lemma switch_ok md5 now w s : WR cs w s ->
  (forall g k, g_of s g <> None -> k < g -> g_of s k <> None) ->
  exists ws w1 w2 s', w_save cs md5 w = Some ws /\ w_restore cs md5 now (w_new cs) ws = Some (w1, 0) /\
    wsim w1 w2 /\ WR cs w2 s' /\ wst_restored cs now s s'.
Proof.
  intros H Cl. pose proof H as [Hp Hl Hlw Ht Hso Hgl Hr Hml].
  assert (Sm : forall x, 0 < refs cs s x -> small x).
  { intros x Q. apply Hr in Q. unfold small. pose proof gmax_N as G. unfold index_limit in G. change (2 ^ 24)%N with 16777216%N.
    destruct x; cbn in Q; [specialize (Hml _ Q)|specialize (Hgl _ Q)]; lia. }
  destruct (itabs_ok now cs (w_tabs w) (tabs s) 0 Hlw Hl Ht) as (wa & Wa & Ra).
  { destruct CO as [F _]. clear - F SC. rewrite Forall_forall in *. intros c I. split; [apply F; auto|apply SC; auto]. }
  { intros k st d E. split.
    - intros i e Ei. apply Sm, (designated_refs cs w); auto. eapply by_entry; eauto.
    - intros x ->. apply Sm, (designated_refs cs w); auto. eapply by_default; eauto. }
  destruct (profile_ok _ _ _ _ Hp Hso Cl) as (wb & Wb & Rb).
  unfold w_save. rewrite Wa, Wb.
  destruct (Ra (wb ++ [])) as (ts1 & ts2 & sts' & E1 & I1 & La & Lb & T2 & R2).
  destruct (Rb []) as (p1 & p2 & E2 & I2 & P2).
  eexists. exists (mkW p1 ts1), (mkW p2 ts2), (mkWst (m_of s) (g_of s) sts'). split; [reflexivity|]. split.
  { unfold w_restore. cbn [rd_num]. rewrite !Z.eqb_refl. cbn [negb w_new w_tabs w_prof].
    rewrite app_nil_r in *. rewrite E1, E2. reflexivity. }
  split; [split; auto|].
  assert (Rf : forall x, refs cs (mkWst (m_of s) (g_of s) sts') x = refs cs s x).
  { intros x. unfold refs. cbn [tabs g_of]. f_equal. apply (trefs_restored cs now (tabs s) sts' 0); auto. }
  split.
  - constructor; cbn [w_prof w_tabs m_of g_of tabs]; auto.
    + eapply PR_ext; [exact P2|]. intros x _. symmetry. apply Rf.
    + intros x Q. rewrite Rf in Q. exact (Hr x Q).
  - split; [auto|]. split; [auto|]. split; [cbn; congruence|]. intros j c t d Ec Et.
    destruct (R2 _ _ _ _ Ec Et) as (st' & A & B). exists st'. auto.
Qed.
End Switch.
