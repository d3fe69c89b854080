(** Stacks of unions, element-wise assignment, resets. *)
From Coq Require Import List Arith ZArith Bool Lia.
From Verif Require Import Base PhvModel PhvSpec PhvProofs PhvProofs2 PhvProofs3.
Import ListNotations.

Lemma swap_members_ok l : forall m s, length l = length m -> NoDup l -> NoDup m -> (forall x, In x l -> ~ In x m) -> (forall x, In x l \/ In x m -> x < length (p_h s)) ->
  exists s', swap_members s l m = Some s' /\ p_u s' = p_u s /\ frame s s' /\
    (forall j a b, nth_error l j = Some a -> nth_error m j = Some b -> H s' a = H s b /\ H s' b = H s a) /\ (forall h, ~ In h l -> ~ In h m -> H s' h = H s h).
Proof.
  induction l as [|a l IH]; intros [|b m] s L NL NM D R; try discriminate; cbn [swap_members].
  - exists s. split; auto. split; auto. split; [apply frame_refl|]. split; auto. intros [|j] a b; discriminate.
  - inversion NL; subst. inversion NM; subst. assert (AB : a <> b) by (intros ->; apply (D b); cbn; auto).
    assert (La : a < length (p_h s)) by (apply R; cbn; auto). assert (Lb : b < length (p_h s)) by (apply R; cbn; auto).
    destruct (nth_error_some (p_h s) a La) as (x & Ex). destruct (nth_error_some (p_h s) b Lb) as (y & Ey).
    unfold swap_h. rewrite Ex, Ey. cbn [bind]. set (s1 := set_h (set_h s a y) b x).
    assert (L1 : length (p_h s1) = length (p_h s)) by (cbn; rewrite !list_set_length; auto).
    destruct (IH m s1) as (s' & -> & PU & FR & HS & HO); auto.
    + intros z Hz Hm. apply (D z); cbn; auto.
    + intros z Hz. rewrite L1. apply R. cbn. tauto.
    + exists s'. split; auto. split; auto. split; [eapply frame_trans; [|exact FR]; repeat split; auto|].
      assert (E1 : forall h, h <> a -> h <> b -> H s1 h = H s h) by (intros; unfold s1; rewrite !H_set_neq by auto; auto).
      assert (Ha : H s1 a = Some y) by (unfold s1; rewrite H_set_neq, H_set_eq by auto; auto).
      assert (Hb : H s1 b = Some x) by (unfold s1; rewrite H_set_eq by (cbn; rewrite list_set_length; auto); auto).
      split.
      * intros [|j] a' b' Ea Eb; cbn in Ea, Eb.
        -- injection Ea as <-. injection Eb as <-. rewrite !HO; auto; [split; [rewrite Ha|rewrite Hb]; auto|intros Hi; apply (D b); cbn; auto|intros Hi; apply (D a); cbn; auto].
        -- destruct (HS j a' b' Ea Eb) as [A B]. apply nth_error_In in Ea, Eb. rewrite A, B. split; apply E1; intros ->; auto; [apply (D a); cbn; auto|apply (D b); cbn; auto].
      * intros h Nl Nm. cbn in Nl, Nm. rewrite HO by tauto. apply E1; intuition congruence.
Qed.

Lemma members_nodup d u m : wf d -> nth_error (ds_u d) u = Some m -> NoDup m.
Proof.
  intros W E. apply NoDup_nth_error. intros i j Li Eq. destruct (nth_error_some m i Li) as (h & Eh).
  assert (A : member d u i h) by (exists m; auto). assert (B : member d u j h) by (exists m; split; auto; congruence). apply (wf_u_disj _ W _ _ _ _ _ A B).
Qed.
Lemma members_range d u m h : wf d -> nth_error (ds_u d) u = Some m -> In h m -> h < length (ds_h d) /\ ~ meta d h.
Proof. intros W E I. apply In_nth_error in I as (i & Ei). eapply wf_u_range; eauto. exists m. eauto. Qed.
Lemma members_disj d u u' m m' : wf d -> u <> u' -> nth_error (ds_u d) u = Some m -> nth_error (ds_u d) u' = Some m' -> forall x, In x m -> ~ In x m'.
Proof.
  intros W N E E' x I I'. apply In_nth_error in I as (i & Ei). apply In_nth_error in I' as (j & Ej). apply N.
  assert (A : member d u i x) by (exists m; auto). assert (B : member d u' j x) by (exists m'; auto). apply (wf_u_disj _ W _ _ _ _ _ A B).
Qed.
Lemma F2_nth {A B} (R : A -> B -> Prop) l m i a b : Forall2 R l m -> nth_error l i = Some a -> nth_error m i = Some b -> R a b.
Proof. intros F. revert i. induction F; intros [|i] Ea Eb; cbn in *; try discriminate; [congruence|eauto]. Qed.
Lemma F2_len {A B} (R : A -> B -> Prop) l m : Forall2 R l m -> length l = length m.
Proof. induction 1; cbn; auto. Qed.

Definition onlyu (d : desc) (e : list nat) (s s' : phv) : Prop :=
  frame s s' /\ (forall u, ~ In u e -> nth_error (p_u s') u = nth_error (p_u s) u) /\ (forall h, (forall u i, In u e -> ~ member d u i h) -> H s' h = H s h).
Lemma onlyu_refl d e s : onlyu d e s s.
Proof. repeat split. Qed.
Lemma onlyu_trans d e a b c : onlyu d e a b -> onlyu d e b c -> onlyu d e a c.
Proof. intros (A & B & C) (D & E & F). split; [eapply frame_trans; eauto|]. split; intros; [rewrite E, B; auto|rewrite F, C; auto]. Qed.
Definition VU (d : desc) (e : list nat) (s : phv) (k : nat) : option (bool * nat) * list (option hdr) :=
  match nth_error e k with
  | Some u => (nth_error (p_u s) u, match nth_error (ds_u d) u with Some m => map (H s) m | None => [] end)
  | None => (None, [])
  end.

Lemma swap_u_ok ag d s a b ma mb : wf d -> INV ag d s -> a <> b -> nth_error (ds_u d) a = Some ma -> nth_error (ds_u d) b = Some mb -> Forall2 (same_type d) ma mb ->
  exists s', swap_u d s a b = Some s' /\ INV ag d s' /\ onlyu d [a; b] s s' /\ nth_error (p_u s') a = nth_error (p_u s) b /\ nth_error (p_u s') b = nth_error (p_u s) a /\
    map (H s') ma = map (H s) mb /\ map (H s') mb = map (H s) ma.
Proof.
  intros W I NAB Ea Eb F2. pose proof (F2_len _ _ _ F2) as LEN. unfold swap_u. rewrite Ea, Eb. cbn [bind]. rewrite LEN, Nat.eqb_refl.
  destruct (nth_error_some (p_u s) a) as (x & Ex); [rewrite (i_u _ _ _ I); eapply nth_error_lt; eauto|].
  destruct (nth_error_some (p_u s) b) as (y & Ey); [rewrite (i_u _ _ _ I); eapply nth_error_lt; eauto|].
  rewrite Ex, Ey. cbn [bind]. set (s1 := set_u (set_u s a y) b x).
  pose proof (members_nodup _ _ _ W Ea) as Na. pose proof (members_nodup _ _ _ W Eb) as Nb. pose proof (members_disj _ _ _ _ _ W NAB Ea Eb) as DJ.
  destruct (swap_members_ok ma mb s1 LEN Na Nb DJ) as (s' & -> & PU & FR & HS & HO).
  { intros z Hz. cbn. rewrite (i_h _ _ _ I). destruct Hz as [Hz|Hz]; [apply (members_range _ _ _ _ W Ea Hz)|apply (members_range _ _ _ _ W Eb Hz)]. }
  assert (H1 : forall h, H s1 h = H s h) by reflexivity. setoid_rewrite H1 in HS. setoid_rewrite H1 in HO.
  assert (LA : a < length (p_u s)) by (eapply nth_error_lt; eauto). assert (LB : b < length (p_u s)) by (eapply nth_error_lt; eauto).
  assert (UA : nth_error (p_u s') a = Some y) by (rewrite PU; cbn; rewrite nth_error_list_set_neq, nth_error_list_set_eq by auto; auto).
  assert (UB : nth_error (p_u s') b = Some x) by (rewrite PU; cbn; rewrite nth_error_list_set_eq by (rewrite list_set_length; auto); auto).
  assert (UO : forall u, u <> a -> u <> b -> nth_error (p_u s') u = nth_error (p_u s) u) by (intros; rewrite PU; cbn; rewrite !nth_error_list_set_neq by auto; auto).
  destruct FR as (F1 & F2' & F3 & F4). cbn in F1, F2', F3, F4. rewrite !list_set_length in F4.
  (* where the contents of each header come from *)
  assert (SRC : forall h, (exists h', H s' h = H s h' /\
       (forall t, nth_error (ds_h d) h = Some t -> exists t', nth_error (ds_h d) h' = Some t' /\ hd_fields t' = hd_fields t) /\ (~ meta d h -> ~ meta d h') /\
       (forall u i v c, member d u i h -> nth_error (p_u s') u = Some (v, c) -> exists u', member d u' i h' /\ nth_error (p_u s) u' = Some (v, c)))).
  { intros h. destruct (um d h) as [[u i]|] eqn:U.
    - pose proof (um_member _ _ _ _ U) as M. pose proof M as (m & Mu & Mi). destruct (Nat.eq_dec u a) as [->|Nua]; [|destruct (Nat.eq_dec u b) as [->|Nub]].
      + assert (m = ma) by congruence. subst m. destruct (nth_error_some mb i) as (h' & Eh); [rewrite <- LEN; eapply nth_error_lt; eauto|].
        exists h'. destruct (HS _ _ _ Mi Eh) as [A _]. split; auto. assert (M' : member d b i h') by (exists mb; auto). split; [|split].
        * intros t T. destruct (F2_nth _ _ _ _ _ _ F2 Mi Eh) as (t1 & t2 & T1 & T2 & TY). exists t2. split; auto. rewrite T in T1. injection T1 as <-. symmetry. eapply wf_ty; eauto.
        * intros _. apply (wf_u_range _ W _ _ _ M').
        * intros u' i' v c M2 U2. destruct (wf_u_disj _ W _ _ _ _ _ M M2) as [<- <-]. exists b. split; auto. congruence.
      + assert (m = mb) by congruence. subst m. destruct (nth_error_some ma i) as (h' & Eh); [rewrite LEN; eapply nth_error_lt; eauto|].
        exists h'. destruct (HS _ _ _ Eh Mi) as [_ A]. split; auto. assert (M' : member d a i h') by (exists ma; auto). split; [|split].
        * intros t T. destruct (F2_nth _ _ _ _ _ _ F2 Eh Mi) as (t1 & t2 & T1 & T2 & TY). exists t1. split; auto. rewrite T in T2. injection T2 as <-. eapply wf_ty; eauto.
        * intros _. apply (wf_u_range _ W _ _ _ M').
        * intros u' i' v c M2 U2. destruct (wf_u_disj _ W _ _ _ _ _ M M2) as [<- <-]. exists a. split; auto. congruence.
      + exists h. split. { apply HO; intros Hi; [apply (members_disj _ _ _ _ _ W Nua Mu Ea h)|apply (members_disj _ _ _ _ _ W Nub Mu Eb h)]; auto; eapply nth_error_In; eauto. }
        split; eauto. split; auto. intros u' i' v c M2 U2. destruct (wf_u_disj _ W _ _ _ _ _ M M2) as [<- <-]. exists u. split; auto. rewrite <- UO by auto. auto.
    - pose proof (um_none _ _ U) as NU. exists h. split. { apply HO; intros Hi; apply NU; apply In_nth_error in Hi as (i & Hi); [exists a, i, ma|exists b, i, mb]; auto. }
      split; eauto. split; auto. intros u' i' v c M2 _. exfalso. apply NU. exists u', i'. auto. }
  exists s'. split; auto. split.
  { constructor.
    - rewrite F3. apply I.
    - rewrite F4. apply I.
    - rewrite F1. apply I.
    - rewrite F2'. apply I.
    - intros u i h z v c M Hz U. destruct (SRC h) as (h' & E & _ & _ & F). destruct (F _ _ _ _ M U) as (u' & M' & U'). rewrite E in Hz. eapply i_un; eauto.
    - intros u m c M U. destruct (Nat.eq_dec u a) as [->|Nua]; [|destruct (Nat.eq_dec u b) as [->|Nub]].
      + assert (m = ma) by congruence. subst. rewrite LEN. eapply i_ui; [eauto|exact Eb|congruence].
      + assert (m = mb) by congruence. subst. rewrite <- LEN. eapply i_ui; [eauto|exact Ea|congruence].
      + rewrite UO in U by auto. eapply i_ui; eauto.
    - intros h t z T Hz. destruct (SRC h) as (h' & E & Ft & _ & _). destruct (Ft _ T) as (t' & T' & TF). rewrite E in Hz. pose proof (i_f _ _ _ I _ _ _ T' Hz) as [A B]. split; auto. rewrite <- TF. auto.
    - intros k e n E. rewrite F1. apply (i_ns _ _ _ I _ _ _ E).
    - intros k e n E. rewrite F2'. apply (i_nus _ _ _ I _ _ _ E).
    - intros A h z M Hz. destruct (SRC h) as (h' & E & _ & Fm & _). rewrite E in Hz. apply (i_ag _ _ _ I A h' z); auto. }
  split.
  { split; [repeat split; auto|]. split.
    - intros u Nu. apply UO; intros ->; apply Nu; cbn; auto.
    - intros h Nh. apply HO; intros Hi; apply In_nth_error in Hi as (i & Hi); [apply (Nh a i)|apply (Nh b i)]; cbn; auto; [exists ma|exists mb]; auto. }
  split; [congruence|]. split; [congruence|]. split.
  - apply nth_error_ext. intros j. rewrite !nth_error_map'. destruct (nth_error ma j) as [h|] eqn:A.
    + destruct (nth_error_some mb j) as (h' & B); [rewrite <- LEN; eapply nth_error_lt; eauto|]. rewrite B. cbn. f_equal. apply (HS _ _ _ A B).
    + apply nth_error_None in A. assert (B : nth_error mb j = None) by (apply nth_error_None; lia). rewrite B. auto.
  - apply nth_error_ext. intros j. rewrite !nth_error_map'. destruct (nth_error mb j) as [h|] eqn:A.
    + destruct (nth_error_some ma j) as (h' & B); [rewrite LEN; eapply nth_error_lt; eauto|]. rewrite B. cbn. f_equal. apply (HS _ _ _ B A).
    + apply nth_error_None in A. assert (B : nth_error ma j = None) by (apply nth_error_None; lia). rewrite B. auto.
Qed.

Lemma ustack_sw ag d k e : wf d -> nth_error (ds_us d) k = Some e -> forall s i j, INV ag d s -> i < length e -> j < length e -> i <> j ->
  exists s', swap_el (swap_u d) e i j s = Some s' /\ INV ag d s' /\ onlyu d e s s' /\ VU d e s' i = VU d e s j /\ VU d e s' j = VU d e s i /\
    forall n, n < length e -> n <> i -> n <> j -> VU d e s' n = VU d e s n.
Proof.
  intros W E s i j I Li Lj N. unfold swap_el. destruct (nth_error_some e i Li) as (a & Ea). destruct (nth_error_some e j Lj) as (b & Eb). rewrite Ea, Eb. cbn [bind].
  pose proof (wf_us_nodup _ W _ _ E) as ND. assert (Ia : In a e) by (eapply nth_error_In; eauto). assert (Ib : In b e) by (eapply nth_error_In; eauto).
  assert (AB : a <> b) by (intros ->; apply N; apply (proj1 (NoDup_nth_error e) ND); [auto|congruence]).
  destruct (wf_us_el _ W _ _ _ _ E Ia Ib) as (ma & mb & Ma & Mb & F2).
  destruct (swap_u_ok ag d s a b ma mb W I AB Ma Mb F2) as (s' & -> & I' & (FR & OU & OH) & UA & UB & HA & HB).
  exists s'. split; auto. split; auto. split.
  { split; auto. split; [intros u Nu; apply OU; intros [->|[->|[]]]; auto|]. intros h Nh. apply OH. intros u i' [<-|[<-|[]]]; auto. }
  unfold VU. rewrite Ea, Eb, Ma, Mb, UA, UB, HA, HB. split; auto. split; auto. intros n Ln Ni Nj. destruct (nth_error_some e n Ln) as (c & Ec). rewrite Ec.
  assert (Nca : c <> a) by (intros ->; apply Ni; apply (proj1 (NoDup_nth_error e) ND); [auto|congruence]).
  assert (Ncb : c <> b) by (intros ->; apply Nj; apply (proj1 (NoDup_nth_error e) ND); [auto|congruence]).
  rewrite OU by (cbn; intuition). f_equal. destruct (nth_error (ds_u d) c) as [m|] eqn:Mc; auto. apply map_ext_in. intros h Hh. apply OH. intros u i' [<-|[<-|[]]] (m' & A & B).
  - apply (members_disj _ _ _ _ _ W Nca Mc Ma h); auto. rewrite Ma in A. injection A as <-. eapply nth_error_In; eauto.
  - apply (members_disj _ _ _ _ _ W Ncb Mc Mb h); auto. rewrite Mb in A. injection A as <-. eapply nth_error_In; eauto.
Qed.
Lemma ustack_noop ag d e : forall s i, INV ag d s -> i < length e ->
  exists s', at_el e i (noop s) = Some s' /\ INV ag d s' /\ onlyu d e s s' /\ True /\ forall n, n < length e -> n <> i -> VU d e s' n = VU d e s n.
Proof.
  intros s i I Li. unfold at_el. destruct (nth_error_some e i Li) as (a & Ea). rewrite Ea. cbn [bind]. exists s. unfold noop. split; auto. split; auto. split; [apply onlyu_refl|]. split; auto.
Qed.
Theorem pop_u_ok ag (legacy : bool) d s k e next n : wf d -> INV ag d s -> nth_error (ds_us d) k = Some e -> nth_error (p_us s) k = Some next ->
  exists s1, pop_front_u legacy d s k n = Some (set_us s1 k (next - n)) /\ INV ag d (set_us s1 k (next - n)) /\ onlyu d e s s1 /\
    forall i, i < length e -> if legacy then (i + n < next -> VU d e s1 i = VU d e s (i + n)) /\ (next <= i -> VU d e s1 i = VU d e s i)
                              else (i + n < length e -> VU d e s1 i = VU d e s (i + n)).
Proof.
  intros W I E N. unfold pop_front_u. rewrite E, N. cbn [bind]. pose proof (i_nus _ _ _ I _ _ _ E N) as LN. destruct legacy.
  - destruct (pop_legacy_ok (swap_u d) noop e (INV ag d) (VU d e) (onlyu d e) (fun _ => True) (onlyu_refl d e) (onlyu_trans d e) (ustack_sw ag d k e W E) (ustack_noop ag d e) next n s I LN) as (s1 & -> & I1 & O & F).
    cbn [bind fst snd]. exists s1. split; auto. split; [eapply INV_set_us; eauto; lia|]. split; auto. intros i Li. destruct (F i Li) as (A & B & C). auto.
  - destruct (pop16_ok (swap_u d) noop e (INV ag d) (VU d e) (onlyu d e) (fun _ => True) (onlyu_refl d e) (onlyu_trans d e) (ustack_sw ag d k e W E) (ustack_noop ag d e) next n s I) as (s1 & -> & I1 & O & F).
    cbn [bind fst snd]. exists s1. split; auto. split; [eapply INV_set_us; eauto; lia|]. split; auto. intros i Li. apply (F i Li).
Qed.
Theorem push_u_ok ag (legacy : bool) d s k e next n : wf d -> INV ag d s -> nth_error (ds_us d) k = Some e -> e <> [] -> nth_error (p_us s) k = Some next ->
  let next' := Nat.min (length e) (next + n) in
  exists s1, push_front_u legacy d s k n = Some (set_us s1 k next') /\ INV ag d (set_us s1 k next') /\ onlyu d e s s1 /\
    forall i, i < length e -> if legacy then (n <= i < next + n -> VU d e s1 i = VU d e s (i - n)) /\ (next + n <= i -> VU d e s1 i = VU d e s i)
                              else (n <= i -> VU d e s1 i = VU d e s (i - n)).
Proof.
  intros W I E NE N next'. unfold push_front_u. rewrite E, N. cbn [bind]. pose proof (i_nus _ _ _ I _ _ _ E N) as LN. destruct legacy.
  - destruct (push_legacy_ok (swap_u d) noop e (INV ag d) (VU d e) (onlyu d e) (fun _ => True) (onlyu_refl d e) (onlyu_trans d e) (ustack_sw ag d k e W E) (ustack_noop ag d e) next n s I NE LN) as (s1 & -> & I1 & O & F).
    cbn [bind fst snd]. exists s1. split; auto. split; [eapply INV_set_us; eauto; unfold next'; lia|]. split; auto. intros i Li. destruct (F i Li) as (A & B & C). auto.
  - destruct (push16_ok (swap_u d) noop e (INV ag d) (VU d e) (onlyu d e) (fun _ => True) (onlyu_refl d e) (onlyu_trans d e) (ustack_sw ag d k e W E) (ustack_noop ag d e) next n s I NE LN) as (s1 & -> & I1 & O & F).
    cbn [bind fst snd]. exists s1. split; auto. split; [eapply INV_set_us; eauto; unfold next'; lia|]. split; auto. intros i Li. apply (F i Li).
Qed.

(** ** Element-wise assignment: the invariant *)
Lemma same_type_range d a b : same_type d a b -> a < length (ds_h d) /\ b < length (ds_h d).
Proof. intros (t & t' & A & B & _). split; eapply nth_error_lt; eauto. Qed.
Lemma assign_header_inv ag d s a b : wf d -> INV ag d s -> same_type d a b -> (ag = true -> ~ siblings d a b /\ (meta d b -> meta d a)) ->
  exists s', assign_header d s a b = Some s' /\ INV ag d s' /\ frame s s'.
Proof.
  intros W I ST G. destruct (H_get _ _ _ b I) as (y & E); [apply (same_type_range _ _ _ ST)|].
  destruct (assign_header_ok ag d s a b y W I ST G E) as (ts & s' & _ & E' & I' & FR & _). exists s'. auto.
Qed.
Lemma assign_all_inv ag d (R : nat -> nat -> Prop) f : (forall s a b, INV ag d s -> R a b -> exists s', f s a b = Some s' /\ INV ag d s' /\ frame s s') ->
  forall l m s, Forall2 R l m -> INV ag d s -> exists s', assign_all f s l m = Some s' /\ INV ag d s' /\ frame s s'.
Proof.
  intros F l m s F2. revert s. induction F2 as [|x y l m HR F2 IHF2]; intros s I; cbn [assign_all].
  - exists s. split; auto. split; auto. apply frame_refl.
  - destruct (F s x y I HR) as (s1 & -> & I1 & FR1). cbn [bind]. destruct (IHF2 s1 I1) as (s2 & -> & I2 & FR2). exists s2. split; auto. split; auto. eapply frame_trans; eauto.
Qed.
Lemma not_sib_diff d u u' i i' a b : wf d -> member d u i a -> member d u' i' b -> (u = u' -> i = i') -> ~ siblings d a b.
Proof.
  intros W A B C (w & j & j' & P & Q & N). destruct (wf_u_disj _ W _ _ _ _ _ A P) as [<- <-]. destruct (wf_u_disj _ W _ _ _ _ _ B Q) as [-> ->]. auto.
Qed.
Lemma assign_union_inv ag d s a b : wf d -> INV ag d s -> unions_match d a b -> exists s', assign_union d s a b = Some s' /\ INV ag d s' /\ frame s s'.
Proof.
  intros W I (m & m' & A & B & F2). unfold assign_union. rewrite A, B. cbn [bind].
  apply (assign_all_inv ag d (fun x y => same_type d x y /\ ~ siblings d x y /\ ~ meta d y)); auto.
  - intros s0 x y I0 (ST & NS & NM). apply assign_header_inv; auto. intros _. split; auto. intros C. contradiction.
  - assert (G : forall i x y, nth_error m i = Some x -> nth_error m' i = Some y -> ~ siblings d x y /\ ~ meta d y).
    { intros i x y X Y. assert (Mx : member d a i x) by (exists m; auto). assert (My : member d b i y) by (exists m'; auto). split; [eapply not_sib_diff; eauto|]. apply (wf_u_range _ W _ _ _ My). }
    clear - F2 G. induction F2; constructor.
    + split; auto. apply (G 0); auto.
    + apply IHF2. intros i. apply (G (S i)).
Qed.
Lemma assign_stack_inv ag d s a b e e' : wf d -> INV ag d s -> nth_error (ds_s d) a = Some e -> nth_error (ds_s d) b = Some e' -> Forall2 (same_type d) e e' ->
  exists s', assign_stack d s a b = Some s' /\ INV ag d s'.
Proof.
  intros W I A B F2. unfold assign_stack. rewrite A, B. cbn [bind]. destruct (nth_error_some (p_s s) b) as (n & En); [rewrite (i_s _ _ _ I); eapply nth_error_lt; eauto|]. rewrite En. cbn [bind].
  pose proof (i_ns _ _ _ I _ _ _ B En) as LN. rewrite <- (F2_len _ _ _ F2) in LN.
  destruct (assign_all_inv ag d (fun x y => same_type d x y /\ ~ siblings d x y /\ ~ meta d y) (assign_header d)) with (l := e) (m := e') (s := set_s s a n) as (s' & E & I' & _).
  - intros s0 x y I0 (ST & NS & NM). apply assign_header_inv; auto. intros _. split; auto. intros C. contradiction.
  - assert (G : forall y, In y e' -> ~ in_union d y /\ ~ meta d y) by (intros y Hy; apply (stack_range _ _ _ _ W B Hy)).
    clear - F2 G. induction F2; constructor.
    + destruct (G y) as [U M]; [cbn; auto|]. split; auto. split; auto. intros (u & i & i' & _ & C & _). apply U. exists u, i'. auto.
    + apply IHF2. intros; apply G; cbn; auto.
  - eapply INV_set_s; eauto.
  - exists s'. auto.
Qed.
Lemma assign_ustack_inv ag d s a b e e' : wf d -> INV ag d s -> nth_error (ds_us d) a = Some e -> nth_error (ds_us d) b = Some e' -> Forall2 (unions_match d) e e' ->
  exists s', assign_ustack d s a b = Some s' /\ INV ag d s'.
Proof.
  intros W I A B F2. unfold assign_ustack. rewrite A, B. cbn [bind]. destruct (nth_error_some (p_us s) b) as (n & En); [rewrite (i_us _ _ _ I); eapply nth_error_lt; eauto|]. rewrite En. cbn [bind].
  pose proof (i_nus _ _ _ I _ _ _ B En) as LN. rewrite <- (F2_len _ _ _ F2) in LN.
  destruct (assign_all_inv ag d (unions_match d) (assign_union d)) with (l := e) (m := e') (s := set_us s a n) as (s' & E & I' & _); auto.
  - intros s0 x y I0 UM. apply assign_union_inv; auto.
  - eapply INV_set_us; eauto.
  - exists s'. auto.
Qed.

(** ** Resets *)
Lemma reset_VL_ok t x : fixed_bits (hd_fields t) mod 8 = 0 -> fields_ok t x -> fields_ok t (reset_VL t x) /\ sum_bits (d_fields (reset_VL t x)) = fixed_bits (hd_fields t).
Proof.
  intros F8 [A B]. unfold reset_VL, fields_ok. cbn [d_fields d_nb].
  assert (G : forall l fs, Forall2 wmatch l fs ->
     Forall2 wmatch l (map (fun p : option nat * (nat * Z) => match fst p with None => (0, snd (snd p)) | Some _ => snd p end) (combine l fs)) /\
     sum_bits (map (fun p : option nat * (nat * Z) => match fst p with None => (0, snd (snd p)) | Some _ => snd p end) (combine l fs)) = fixed_bits l /\
     sum_bits fs = fixed_bits l + 8 * fold_right Nat.add 0 (map (fun p : option nat * (nat * Z) => match fst p with None => (fst (snd p) + 7) / 8 | Some _ => 0 end) (combine l fs))).
  { clear. induction 1 as [|w f l fs WM F (IH1 & IH2 & IH3)]; [repeat split; constructor|]. cbn [combine map fold_right fst snd]. split; [|split].
    - constructor; auto. destruct w; cbn in *; auto.
    - unfold sum_bits, fixed_bits in *. cbn [map fold_right]. rewrite IH2. destruct w; cbn in WM |- *; congruence.
    - unfold sum_bits, fixed_bits in *. cbn [map fold_right]. rewrite IH3. destruct f as [w' v]. destruct w; cbn [wmatch fst snd] in *; [lia|]. apply mod8 in WM as (k & ->).
      replace ((8 * k + 7) / 8) with k; [lia|]. rewrite Nat.mul_comm, Nat.add_comm, Nat.div_add by lia. reflexivity. }
  destruct (G _ _ A) as (G1 & G2 & G3). split; [split; auto|auto]. rewrite G2. rewrite G3 in B. lia.
Qed.
Definition cleared (t : hdesc) (x y : hdr) : Prop :=
  d_valid y = false /\ d_vf y = false /\ map snd (d_fields y) = map snd (d_fields x) /\ (8 * d_nb y = Z.of_nat (fixed_bits (hd_fields t)))%Z /\ sum_bits (d_fields y) = fixed_bits (hd_fields t).
Lemma fixed_sum t fs : Forall2 wmatch t fs -> existsb (fun w : option nat => match w with None => true | Some _ => false end) t = false -> sum_bits fs = fixed_bits t.
Proof.
  induction 1 as [|w f t fs WM _ IH]; auto. cbn [existsb]. destruct w; [|discriminate]. cbn [orb]. intros E. unfold sum_bits, fixed_bits in *. cbn [map fold_right]. rewrite IH by auto. cbn in WM. congruence.
Qed.
Lemma reset_VL_snd l fs : length l = length fs -> map snd (map (fun p : option nat * (nat * Z) => match fst p with None => (0, snd (snd p)) | Some _ => snd p end) (combine l fs)) = map snd fs.
Proof. revert fs; induction l as [|w l IH]; intros [|f fs] L; try discriminate; cbn; auto. rewrite IH by auto. destruct w; auto. Qed.
Lemma phv_reset_ok ag d s : wf d -> INV ag d s -> exists s', phv_reset d s = Some s' /\ INV ag d s' /\ frame s s' /\
  forall h t x, nth_error (ds_h d) h = Some t -> H s h = Some x -> exists y, H s' h = Some y /\ cleared t x y.
Proof.
  intros W I. unfold phv_reset.
  assert (G : forall n i s, INV ag d s -> i + n = length (p_h s) -> exists s', run_up n i (fun h s => t <- nth_error (ds_h d) h ;; s1 <- mark_invalid d s h ;; x <- nth_error (p_h s1) h ;; Some (if is_VL t then set_h s1 h (reset_VL t x) else s1)) s = Some s' /\ INV ag d s' /\ frame s s' /\
     (forall h, h < i -> H s' h = H s h) /\ forall h t x, i <= h -> nth_error (ds_h d) h = Some t -> H s h = Some x -> exists y, H s' h = Some y /\ cleared t x y).
  { clear s I. induction n as [|n IH]; intros i s I L; cbn [run_up].
    - exists s. split; auto. split; auto. split; [apply frame_refl|]. split; auto. intros h t x Hh _ E. apply nth_error_lt in E. lia.
    - destruct (nth_error_some (ds_h d) i) as (t & T); [rewrite <- (i_h _ _ _ I); lia|]. rewrite T. cbn [bind].
      destruct (nth_error_some (p_h s) i) as (x & E); [lia|]. destruct (mark_invalid_ok ag d s i x W I E) as (s1 & -> & I1 & FR1 & Hi & Hk & _). cbn [bind].
      unfold H in Hi. rewrite Hi. cbn [bind]. fold (H s1 i) in Hi. pose proof (i_f _ _ _ I _ _ _ T E) as FX. pose proof (wf_size _ W _ _ T) as F8.
      destruct (reset_VL_ok t (with_valid x false) F8 (with_valid_fields _ _ false FX)) as [RV RS].
      set (s2 := if is_VL t then set_h s1 i (reset_VL t (with_valid x false)) else s1).
      assert (S2 : INV ag d s2 /\ frame s s2 /\ (forall k, k <> i -> H s2 k = H s k) /\ exists y, H s2 i = Some y /\ cleared t x y).
      { unfold s2. destruct (is_VL t) eqn:VL.
        - assert (Li : i < length (p_h s1)) by (eapply nth_error_lt; eauto). split; [|split; [|split]].
          + apply (INV_set ag d s1 i (with_valid x false)); auto. intros t' T'. rewrite T in T'. injection T' as <-. auto.
          + eapply frame_trans; [exact FR1|]. repeat split. cbn. rewrite list_set_length. auto.
          + intros k Nk. rewrite H_set_neq by auto. auto.
          + eexists. split; [apply H_set_eq; auto|]. unfold cleared. split; auto. split; auto. split; [|split; auto].
            * unfold reset_VL. cbn [d_fields with_valid]. apply reset_VL_snd. apply (F2_len _ _ _ (proj1 FX)).
            * destruct RV as [_ RV]. rewrite RS in RV. auto.
        - split; auto. split; auto. split; auto. eexists. split; [exact Hi|]. unfold cleared. cbn [with_valid d_valid d_vf d_fields d_nb]. pose proof (fixed_sum _ _ (proj1 FX) VL) as FS. destruct FX as [_ FX]. rewrite FS in FX. auto. }
      destruct S2 as (I2 & FR2 & K2 & (y & Y1 & Y2)). destruct (IH (S i) s2 I2) as (s' & -> & I' & FR & J1 & J2); [destruct FR2 as (_ & _ & -> & _); lia|].
      exists s'. split; auto. split; auto. split; [eapply frame_trans; eauto|]. split.
      + intros h Lh. rewrite J1 by lia. apply K2. lia.
      + intros h t' x' Lh T' E'. destruct (Nat.eq_dec h i) as [->|N].
        * rewrite J1 by lia. exists y. split; auto. unfold H in E'. assert (QT : t' = t) by congruence. assert (QX : x' = x) by congruence. subst. auto.
        * apply (J2 h t' x'); auto; [lia|]. rewrite K2 by auto. auto. }
  destruct (G (length (p_h s)) 0 s I) as (s' & E & I' & FR & _ & F); [lia|]. exists s'. split; auto. split; auto. split; auto. intros h t x T Hx. apply (F h t x); auto. lia.
Qed.
Lemma reset_stacks_inv ag d s : INV ag d s -> INV ag d (reset_stacks s).
Proof.
  intros I. constructor; try apply I; cbn; rewrite ?map_length; try apply I.
  - intros k e n E N. rewrite nth_error_map' in N. destruct (nth_error (p_s s) k); [|discriminate]. injection N as <-. lia.
  - intros k e n E N. rewrite nth_error_map' in N. destruct (nth_error (p_us s) k); [|discriminate]. injection N as <-. lia.
Qed.
Lemma recycle_inv ag d s : wf d -> INV ag d s -> exists s', recycle d s = Some s' /\ INV ag d s'.
Proof. intros W I. unfold recycle. destruct (phv_reset_ok ag d s W I) as (s1 & -> & I1 & _). cbn [bind]. eexists. split; eauto. apply reset_stacks_inv. auto. Qed.
Lemma nth_error_combine {A B} (l : list A) (m : list B) i : nth_error (combine l m) i = match nth_error l i, nth_error m i with Some a, Some b => Some (a, b) | _, _ => None end.
Proof. revert m i; induction l as [|a l IH]; intros [|b m] [|i]; cbn; auto. destruct (nth_error l i); auto. Qed.
Lemma reset_metadata_H d s h : H (reset_metadata d s) h = match nth_error (ds_h d) h, H s h with Some t, Some x => Some (if hd_meta t then reset_hdr x else x) | _, _ => None end.
Proof. unfold H, reset_metadata. cbn. rewrite nth_error_map', nth_error_combine. destruct (nth_error (ds_h d) h), (nth_error (p_h s) h); auto. Qed.
Lemma reset_metadata_inv ag d s : wf d -> INV ag d s -> INV ag d (reset_metadata d s).
Proof.
  intros W I. constructor; try apply I.
  - unfold reset_metadata. cbn. rewrite map_length, combine_length, (i_h _ _ _ I). lia.
  - intros u i h x v c M E U. rewrite reset_metadata_H in E. destruct (nth_error (ds_h d) h) eqn:T; [|discriminate]. destruct (H s h) eqn:E0; [|discriminate]. injection E as <-.
    assert (DV : d_valid (if hd_meta h0 then reset_hdr h1 else h1) = d_valid h1) by (destruct (hd_meta h0); auto). rewrite DV. eapply i_un; eauto.
  - intros h t x T E. rewrite reset_metadata_H, T in E. destruct (H s h) eqn:E0; [|discriminate]. injection E as <-. pose proof (i_f _ _ _ I _ _ _ T E0). destruct (hd_meta t); auto. apply reset_hdr_fields. auto.
  - intros A h x M E. rewrite reset_metadata_H in E. destruct (nth_error (ds_h d) h) eqn:T; [|discriminate]. destruct (H s h) eqn:E0; [|discriminate]. injection E as <-.
    destruct (hd_meta h0) eqn:Mt; [exfalso; apply M; eapply meta_intro; eauto|]. eapply i_ag; eauto.
Qed.
Lemma wmatch_set t fs f v o : Forall2 wmatch t fs -> nth_error fs f = Some o -> Forall2 wmatch t (list_set fs f (fst o, v)) /\ sum_bits (list_set fs f (fst o, v)) = sum_bits fs.
Proof.
  intros F. revert f. induction F as [|w p t fs WM F IH]; intros [|f] E; try discriminate.
  - injection E as <-. cbn [list_set]. split; [constructor; auto; destruct w; auto|]. destruct p. auto.
  - cbn in E. destruct (IH f E) as [A B]. cbn [list_set]. split; [constructor; auto|]. destruct p. rewrite !sum_bits_cons, B. auto.
Qed.

Theorem step_inv ag legacy d s o : wf d -> INV ag d s -> op_ok d o -> (ag = true -> op_agree d o) -> exists s', step legacy d s o = Some s' /\ INV ag d s'.
Proof.
  intros W I OK AG. destruct o; cbn [step op_ok op_agree] in *.
  - destruct OK as (t & T & L & V). destruct (H_get _ _ _ h I) as (x & E); [eapply nth_error_lt; eauto|]. destruct (extract_ok ag d s h vl vals t x W I T E L V) as (s' & fs & nb & A & B & _). eauto.
  - destruct (nth_error_some _ _ OK) as (t & T). destruct (H_get _ _ _ h I OK) as (x & E). destruct (add_header_ok ag d s h t x W I T E) as (s' & A & B & _). eauto.
  - destruct (H_get _ _ _ h I OK) as (x & E). destruct (mark_valid_ok ag d s h x W I E) as (s' & A & B & _). eauto.
  - destruct (nth_error_some _ _ OK) as (t & T). destruct (H_get _ _ _ h I OK) as (x & E). destruct (remove_header_ok ag d s h t x W I T E) as (s' & A & B & _). eauto.
  - destruct (assign_header_inv ag d s dst src W I OK AG) as (s' & A & B & _). eauto.
  - destruct (assign_union_inv ag d s dst src W I OK) as (s' & A & B & _). eauto.
  - destruct OK as (e & e' & A & B & C). eapply assign_stack_inv; eauto.
  - destruct OK as (e & e' & A & B & C). eapply assign_ustack_inv; eauto.
  - destruct OK as (e & A & B). destruct (nth_error_some (p_s s) k) as (x & E); [rewrite (i_s _ _ _ I); eapply nth_error_lt; eauto|]. destruct (push_ok ag legacy d s k e x n W I A B E) as (s1 & C & D & _). eauto.
  - destruct (nth_error_some _ _ OK) as (e & A). destruct (nth_error_some (p_s s) k) as (x & E); [rewrite (i_s _ _ _ I); auto|]. destruct (pop_ok ag legacy d s k e x n W I A E) as (s1 & C & D & _). eauto.
  - destruct OK as (e & A & B). destruct (nth_error_some (p_us s) k) as (x & E); [rewrite (i_us _ _ _ I); eapply nth_error_lt; eauto|]. destruct (push_u_ok ag legacy d s k e x n W I A B E) as (s1 & C & D & _). eauto.
  - destruct (nth_error_some _ _ OK) as (e & A). destruct (nth_error_some (p_us s) k) as (x & E); [rewrite (i_us _ _ _ I); auto|]. destruct (pop_u_ok ag legacy d s k e x n W I A E) as (s1 & C & D & _). eauto.
  - destruct OK as (e & A & V & L). destruct (nth_error_some (p_s s) k) as (x & E); [rewrite (i_s _ _ _ I); eapply nth_error_lt; eauto|]. unfold extract_next. rewrite A, E. cbn [bind].
    pose proof (i_ns _ _ _ I _ _ _ A E). destruct (Nat.leb_spec (length e) x); [eauto|]. unfold at_el at 1. destruct (nth_error_some e x) as (h & Eh); auto. rewrite Eh. cbn [bind].
    assert (Ih : In h e) by (eapply nth_error_In; eauto). destruct (stack_range _ _ _ _ W A Ih) as (Lh & _). destruct (nth_error_some _ _ Lh) as (t & T). destruct (H_get _ _ _ h I Lh) as (y & Y).
    destruct (extract_ok ag d s h vl vals t y W I T Y (L _ _ Ih T) V) as (s1 & fs & nb & -> & I1 & FR & _). cbn [bind].
    unfold push_back. rewrite A. destruct FR as (-> & _). rewrite E. cbn [bind]. destruct (Nat.eqb_spec x (length e)); [lia|].
    destruct (stack_mv ag d k e W A s1 x I1) as (s2 & -> & I2 & _); [lia|]. cbn [bind fst]. eexists. split; eauto. eapply INV_set_s; eauto.
  - destruct (nth_error_some _ _ OK) as (e & A). destruct (nth_error_some (p_s s) k) as (x & E); [rewrite (i_s _ _ _ I); auto|]. unfold push_back. rewrite A, E. cbn [bind].
    pose proof (i_ns _ _ _ I _ _ _ A E). destruct (Nat.eqb_spec x (length e)); [cbn [bind fst]; eauto|].
    destruct (stack_mv ag d k e W A s x I) as (s1 & -> & I1 & _); [lia|]. cbn [bind fst]. eexists. split; eauto. eapply INV_set_s; eauto. lia.
  - destruct (nth_error_some _ _ OK) as (e & A). destruct (nth_error_some (p_s s) k) as (x & E); [rewrite (i_s _ _ _ I); auto|]. unfold pop_back. rewrite A, E. cbn [bind].
    pose proof (i_ns _ _ _ I _ _ _ A E). destruct x; [cbn [bind fst]; eauto|].
    destruct (stack_mi ag d k e W A s x I) as (s1 & -> & I1 & _); [lia|]. cbn [bind fst]. eexists. split; eauto. eapply INV_set_s; eauto. lia.
  - destruct (nth_error_some _ _ OK) as (e & A). destruct (nth_error_some (p_us s) k) as (x & E); [rewrite (i_us _ _ _ I); auto|]. unfold push_back_u. rewrite A, E. cbn [bind].
    pose proof (i_nus _ _ _ I _ _ _ A E). destruct (Nat.eqb_spec x (length e)); cbn [bind fst]; eauto. eexists. split; eauto. eapply INV_set_us; eauto. lia.
  - destruct OK as (t & T & L). destruct (H_get _ _ _ h I) as (x & E); [eapply nth_error_lt; eauto|]. unfold set_field. unfold H in E. rewrite E. cbn [bind]. fold (H s h) in E.
    pose proof (i_f _ _ _ I _ _ _ T E) as [FX NX]. destruct (nth_error_some (d_fields x) f) as (q & Q); [rewrite <- (F2_len _ _ _ FX); auto|]. rewrite Q. cbn [bind]. eexists. split; eauto.
    apply (INV_set ag d s h x); auto. intros t' T'. rewrite T in T'. injection T' as <-. destruct (wmatch_set _ _ _ v _ FX Q) as [A B]. split; auto. cbn [d_nb d_fields]. rewrite B. auto.
  - apply recycle_inv; auto.
  - eexists. split; eauto. apply reset_metadata_inv; auto.
Qed.
Theorem run_inv ag legacy d l : wf d -> Forall (op_ok d) l -> (ag = true -> Forall (op_agree d) l) -> forall s, INV ag d s -> exists s', run legacy d s l = Some s' /\ INV ag d s'.
Proof.
  intros W. induction l as [|o l IH]; intros OK AG s I; cbn [run]; [eauto|]. inversion OK; subst.
  destruct (step_inv ag legacy d s o W I) as (s1 & -> & I1); auto.
  { intros A. specialize (AG A). inversion AG; auto. }
  cbn [bind]. apply IH; auto. intros A. specialize (AG A). inversion AG; auto.
Qed.
