(** Proofs about save and restore: direct tables. *)
From Coq Require Import List Arith NArith ZArith Bool Lia Sorted.
From Verif Require Import Base Bits Bytes EntryListModel EntryListProofs MatchUnitModel MatchUnitSpec MatchUnitProofs
  MatchUnitConseq KeyBuilderModel KeyBuilderSpec KeyBuilderProofs3 KeyBuilderProps ProfileModel ProfileSpec
  SerialModel SerialSpec SerialProofs TableModel TableSpec TableProofs TableProps.
Import ListNotations.

(** ** Tables that differ in [first_unset] only *)
Definition tsim (a b : table) : Prop :=
  usim (t_unit a) (t_unit b) /\ t_default a = t_default b /\ t_imm a = t_imm b.
Definition tosim {A} (r r' : option (table * A)) : Prop :=
  match r, r' with
  | Some (a, x), Some (b, y) => tsim a b /\ x = y
  | None, None => True
  | _, _ => False
  end.

Lemma on_unit_sim a b r r' : tsim a b -> osim r r' -> tosim (on_unit a r) (on_unit b r').
Proof.
  intros (U & D & I) O. unfold on_unit. destruct r as [[u x]|], r' as [[v y]|]; try contradiction; cbn; auto.
  destruct O as [O <-]. destruct x; cbn; auto; (split; [repeat split; cbn; auto; apply O|auto]).
Qed.
Lemma tsim_get_entry kd kb a b h : tsim a b -> t_get_entry kd kb a h = t_get_entry kd kb b h.
Proof.
  intros (U & _). unfold t_get_entry, mu_get_entry. rewrite (usim_resolve _ _ _ U).
  destruct (mu_resolve (t_unit b) h) as [[]|]; reflexivity.
Qed.
Lemma tsim_get kd kb a b h : tsim a b -> tosim (t_get kd kb a h) (t_get kd kb b h).
Proof.
  intros H. unfold t_get. rewrite (tsim_get_entry _ _ _ _ _ H). destruct (t_get_entry kd kb b h) as [[]|]; cbn; auto.
Qed.
Lemma tsim_step kd c kb a b o : tsim a b -> ~ is_tadd o -> tosim (t_step kd c kb a o) (t_step kd c kb b o).
Proof.
  intros H NA. pose proof H as (U & D & I). destruct o; cbn [t_step]; try (exfalso; apply NA; exact Logic.I).
  - unfold t_delete. rewrite I. destruct (t_imm b); [cbn; auto|]. apply on_unit_sim; auto.
    apply (usim_delete kd _ _ h U).
  - unfold t_modify. rewrite I. destruct (t_imm b); [cbn; auto|]. destruct (negb _); [cbn; auto|].
    destruct (next_node c fn); [|cbn; auto]. apply on_unit_sim; auto.
    apply (usim_step kd 0 _ _ (MMod h _) U). auto.
  - unfold t_set_default. destruct (c_const_entry c); [cbn; auto|]. 
    destruct (match c_const_action c with Some f => negb (f =? fn) | None => false end); [cbn; auto|].
    destruct (negb _); [cbn; auto|]. destruct (next_node_default c fn); cbn; auto. split; auto. repeat split; cbn; auto; apply U.
  - cbn. split; auto. repeat split; cbn; auto; apply U.
  - rewrite D. destruct (a_fn (t_default b)); cbn; auto.
  - apply tsim_get; auto.
  - unfold t_get_key. destruct (kb_build_entry kd kb ps prio) as [[]|]; cbn; auto.
    pose proof (usim_step kd 0 _ _ (MRetr k) U ltac:(auto)) as Q. cbn [mu_step] in Q.
    destruct (mu_retrieve kd (t_unit a) k) as [[u x]|], (mu_retrieve kd (t_unit b) k) as [[v y]|]; try contradiction; cbn; auto.
    destruct Q as [Q <-]. destruct x; cbn; auto. apply tsim_get; auto.
  - unfold t_entries. pose proof (usim_step kd 0 _ _ MIter U ltac:(auto)) as Q. cbn [mu_step] in Q.
    destruct (mu_iter (t_unit a)) as [[u x]|], (mu_iter (t_unit b)) as [[v y]|]; try contradiction; cbn; auto.
    destruct Q as [Q <-]. destruct x; cbn; auto.
    assert (X : forall l, t_get_all kd kb a l = t_get_all kd kb b l).
    { induction l0; cbn; auto. rewrite (tsim_get_entry _ _ _ _ _ H), IHl0. reflexivity. }
    rewrite X. destruct (t_get_all kd kb b l); cbn; auto.
  - unfold t_apply. pose proof (usim_step kd (kb_nbytes kb) _ _ (MLookup ts len (kb_key kb phv)) U ltac:(auto)) as Q.
    cbn [mu_step] in Q.
    destruct (mu_lookup kd (kb_nbytes kb) (t_unit a) ts len (kb_key kb phv)) as [[u x]|],
      (mu_lookup kd (kb_nbytes kb) (t_unit b) ts len (kb_key kb phv)) as [[v y]|]; try contradiction; cbn; auto.
    destruct Q as [Q <-]. rewrite D. destruct x; cbn; auto.
    + destruct v0; cbn; auto. split; auto. repeat split; cbn; auto; apply Q.
    + split; auto. repeat split; cbn; auto; apply Q.
  - cbn. split; auto. unfold t_clear. rewrite D. repeat split; cbn; auto.
    all: pose proof (usim_step kd 0 _ _ MReset U ltac:(auto)) as Q; cbn in Q; apply Q.
  - cbn. split; auto. repeat split; cbn; auto; apply U.
  - destruct (c_counters c); [|cbn; auto]. apply on_unit_sim; auto. apply (usim_step kd 0 _ _ (MQuery h) U). auto.
  - destruct (c_counters c); [|cbn; auto]. apply on_unit_sim; auto. apply (usim_step kd 0 _ _ (MWrite h b0 p) U). auto.
  - destruct (c_counters c); [|cbn; auto]. apply on_unit_sim; auto. apply (usim_step kd 0 _ _ MResetC U). auto.
  - destruct (c_ageing c); [|cbn; auto]. apply on_unit_sim; auto. apply (usim_step kd 0 _ _ (MTtl now h ttl) U). auto.
  - apply on_unit_sim; auto. apply (usim_step kd 0 _ _ (MSweep now) U). auto.
  - apply on_unit_sim; auto. apply (usim_step kd 0 _ _ MCount U). auto.
Qed.
Lemma tsim_run kd c kb : forall ops a b, tsim a b -> Forall (fun o => ~ is_tadd o) ops ->
  tosim (t_run kd c kb a ops) (t_run kd c kb b ops).
Proof.
  induction ops as [|o ops IH]; intros u v H F; cbn [t_run]; [split; auto|].
  inversion F as [|? ? Fo Fs]; subst. pose proof (tsim_step kd c kb _ _ _ H Fo) as Q.
  destruct (t_step kd c kb u o) as [[u1 x]|], (t_step kd c kb v o) as [[v1 y]|]; try contradiction; cbn; auto.
  destruct Q as [Q <-]. pose proof (IH _ _ Q Fs) as P.
  destruct (t_run kd c kb u1 ops) as [[u2 xs]|], (t_run kd c kb v1 ops) as [[v2 ys]|]; try contradiction; cbn; auto.
  destruct P as [P <-]. auto.
Qed.

(** ** Action entries *)
Lemma rd_data_ok ds : forall acc r, rd_data (length ds) acc (map WData ds ++ r) = Some (acc ++ ds, r).
Proof.
  induction ds as [|d ds IH]; intros acc r; cbn [length map app rd_data].
  - rewrite app_nil_r. reflexivity.
  - rewrite IH, <- app_assoc. reflexivity.
Qed.
Lemma rd_w_action old a r : (a_fn a = None -> a_data a = []) ->
  rd_action old (w_action a ++ r) =
  Some (mkA (a_fn a) (a_data old ++ a_data a) (match a_next a with None => a_next old | x => x end), r).
Proof.
  intros H. unfold rd_action, w_action. destruct a as [[fn|] data nn]; cbn [a_fn a_data a_next] in *.
  - rewrite <- app_assoc. cbn [app]. cbn [rd_num]. unfold w_nat at 1.
    destruct (Z.eqb_spec (Z.of_nat fn) (-1)); [lia|]. rewrite rd_w_nat, rd_data_ok. cbn [app].
    rewrite Nat2Z.id. destruct nn; reflexivity.
  - rewrite (H eq_refl), app_nil_r. cbn. destruct nn; reflexivity.
Qed.

Section Table.
Variables (kd : mkind) (c : tcfg) (fs : list kfield) (size : nat) (cache cache' : bool).
Hypothesis HL : layout_ok kd fs.
Hypothesis HA : lpm_aligned fs.
Hypothesis HS : (N.of_nat size <= 2 ^ 24)%N.
Hypothesis kd_ok : simple_kind kd.
Hypothesis nb_ok : 0 < key_bytes fs.
Let kb := kb_build fs.

Lemma TI_run2 : forall ops last t s rows d im, TI kd c fs size cache last t s rows d im -> tops_ok c fs last ops ->
  exists t' outs last' s', t_run kd c kb t ops = Some (t', outs) /\
    TI kd c fs size cache last' t' s' (rows_after rows ops outs) (default_after d ops outs) (fold_left imm_step ops im).
Proof.
  induction ops as [|o ops IH]; intros last t s rows d im H Ho.
  - exists t, [], last, s. cbn. auto.
  - destruct Ho as [Ho Hr].
    destruct (TI_step kd c fs size cache HL HA HS last t s rows d im o H ltac:(split; cbn; auto)) as (t' & x & s' & E & C & H').
    destruct (IH _ _ _ _ _ _ H' Hr) as (t'' & xs & l'' & s'' & E' & C').
    exists t'', (x :: xs), l'', s''. cbn [t_run]. fold kb in E. rewrite E, E'. auto.
Qed.

Lemma corr_nkey e r : corr kd c fs e r -> nkey kd (s_key e) = s_key e.
Proof.
  intros C. rewrite (corr_ekey kd c fs HL e r C). unfold ekey, nkey. destruct kd_ok as [K | K]; rewrite K; reflexivity.
Qed.

Lemma TI_restore last t s rows d im now j : TI kd c fs size cache last t s rows d im ->
  a_data (c_default c) = [] ->
  (forall fn, node_on_miss c fn = Some None -> a_next (c_default c) = None) ->
  exists ws last', t_save kd c j t = Some ws /\
    (forall m, (forall i, now i <= m) -> last' <= m)%N /\
  forall r, exists t1 t2 s',
    t_restore kd j now (t_new kd c size cache') (ws ++ r) = Some (t1, r) /\ tsim t1 t2 /\
    TI kd c fs size cache' last' t2 s' (zero_rows rows) d false /\ (rows 0 = None -> t2 = t1).
Proof.
  intros [M Iv Rw Df Im Hd] G1 G2.
  destruct (unit_ok w_action (rd_action a_null) kd (key_bytes fs) size cache cache' now HS kd_ok nb_ok last (t_unit t) s M)
    as (ws & hs & Ws & En & Rs).
  { intros i e r E. specialize (Rw i). rewrite E in Rw. destruct (rows i) as [rw|]; [|contradiction].
    destruct Rw as (_ & _ & _ & (nn & _ & V) & _). rewrite V. rewrite rd_w_action by (cbn; discriminate).
    cbn. destruct nn; reflexivity. }
  unfold t_save. rewrite Ws. eexists. exists (last_of now hs). split; [reflexivity|]. split.
  { apply last_of_le. }
  intros r. unfold t_restore, rd_header. cbn [app]. rewrite Nat.eqb_refl, <- app_assoc.
  destruct (Rs (w_action (t_default t) ++ r)) as (u & v & s' & E & U & M' & Rst & Ky & Z).
  cbn [t_new t_unit t_default t_imm]. rewrite E.
  assert (Fd : a_fn (t_default t) = None -> a_data (t_default t) = []).
  { destruct d as [[fn data]|]; [destruct Df as (nn & _ & ->); discriminate|]. rewrite Df. auto. }
  rewrite rd_w_action by auto. rewrite G1. cbn [app].
  assert (Dd : mkA (a_fn (t_default t)) (a_data (t_default t))
      (match a_next (t_default t) with None => a_next (c_default c) | x => x end) = t_default t).
  { destruct d as [[fn data]|].
    - destruct Df as (nn & Nn & ->). cbn. destruct nn; auto. rewrite (G2 fn); [reflexivity|]. exact Nn.
    - rewrite Df. destruct (c_default c) as [f da [n|]]; reflexivity. }
  rewrite Dd.
  exists (mkT u (t_default t) false), (mkT v (t_default t) false), s'. split; [reflexivity|].
  split; [split; [exact U|auto]|]. split.
  - constructor; cbn [t_unit t_default t_imm]; auto.
    + constructor.
      * intros i e i' e' A B Sk. pose proof (Rst i) as Ri. pose proof (Rst i') as Ri'.
        destruct (slot_of s i) as [e0|] eqn:E0; [|destruct Ri; congruence].
        destruct (slot_of s i') as [e1|] eqn:E1; [|destruct Ri'; congruence].
        destruct Ri as (x & X & Kx & _), Ri' as (y & Y & Kz & _).
        assert (x = e) by congruence. assert (y = e') by congruence. subst x y.
        apply (iv_uniq _ _ _ _ Iv i e0 i' e1 E0 E1). clear - Sk Kx Kz kd_ok.
        destruct kd_ok as [K | K]; rewrite K in *; unfold key_same, same_key in *; intuition congruence.
      * intros i e A. pose proof (Rst i) as Ri. destruct (slot_of s i) as [e0|] eqn:E0; [|destruct Ri; congruence].
        destruct Ri as (x & X & Kx & _). assert (x = e) by congruence. subst x.
        pose proof (iv_key _ _ _ _ Iv i e0 E0) as Ko. clear - Ko Kx kd_ok.
        destruct kd_ok as [K | K]; rewrite K in *; unfold key_same, key_ok in *; intuition congruence.
      * intros i A. apply (iv_lt _ _ _ _ Iv). pose proof (Rst i) as Ri. destruct (slot_of s i); [congruence|].
        destruct Ri; congruence.
    + intros i. unfold zero_rows. specialize (Rw i). pose proof (Rst i) as Ri.
      destruct (slot_of s i) as [e0|] eqn:E0; destruct (rows i) as [rw|] eqn:Er; try contradiction.
      2:{ destruct Ri as [-> _]. exact Rw. }
      destruct Ri as (x & X & Kx & Vx & _ & Bx & Px & _). rewrite X.
      destruct Rw as (A1 & A2 & A3 & A4 & A5). repeat split; cbn [r_params r_prio r_fn r_data r_bytes r_pkts set_counts]; auto.
      * rewrite A3. do 2 f_equal.
        destruct (Ky _ _ E0) as (y & Y & Yk). assert (y = x) by congruence. subst y. rewrite Yk.
        symmetry. apply (corr_nkey e0 rw). repeat split; auto; tauto.
      * rewrite Vx. exact A4.
    + intros i rw Z1. unfold zero_rows in Z1. destruct (rows i) as [r0|] eqn:Er; [|discriminate]. injection Z1 as <-.
      cbn [set_counts r_handle]. rewrite (Hd _ _ Er). unfold handle_of. specialize (Rw i). rewrite Er in Rw.
      pose proof (Rst i) as Ri. destruct (slot_of s i) as [e0|]; [|contradiction].
      destruct Ri as (x & _ & _ & _ & _ & _ & _ & -> & _). reflexivity.
  - intros R0. specialize (Rw 0). rewrite R0 in Rw. destruct (slot_of s 0); [contradiction|]. rewrite Z; auto.
Qed.
End Table.
