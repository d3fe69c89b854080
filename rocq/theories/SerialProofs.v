(** Proofs about save and restore: hexadecimal words, handle managers, match units. *)
From Coq Require Import List Arith NArith ZArith Bool Lia Sorted.
From Verif Require Import Base Bits SMap KeyBuilderModel TableModel ProfileModel LpmModel LpmSpec LpmProofs
  EntryListModel EntryListSpec EntryListProofs MatchUnitModel MatchUnitSpec MatchUnitProofs SerialModel SerialSpec
  HandleMgrModel HandleMgrSpec HandleMgrProofs.
Import ListNotations.

Lemma nthx {A} (l : list A) i n : length l = n -> i < n -> exists x, nth_error l i = Some x.
Proof. intros <- H. destruct (nth_error l i) eqn:E; eauto. apply nth_error_None in E. lia. Qed.

(** ** Words *)
Lemma hex_pairs_to_hex bs : bytes_ok bs -> hex_pairs (to_hex bs) = Some bs.
Proof.
  induction 1 as [|b bs H _ IH]; [reflexivity|].
  change (to_hex (b :: bs)) with ((b / 16)%N :: (b mod 16)%N :: to_hex bs). cbn [hex_pairs]. rewrite IH.
  do 2 f_equal. pose proof (N.div_mod b 16 ltac:(discriminate)) as Q. rewrite N.mul_comm, <- Q. apply N.mod_small. exact H.
Qed.
Lemma to_hex_len bs : length (to_hex bs) = 2 * length bs.
Proof.
  induction bs as [|b bs IH]; [reflexivity|].
  change (to_hex (b :: bs)) with ((b / 16)%N :: (b mod 16)%N :: to_hex bs). cbn [length]. lia.
Qed.
Lemma rd_w_hex bs r : bytes_ok bs -> bs <> [] -> rd_hex (w_hex bs ++ r) = Some (bs, r).
Proof.
  intros H N. destruct bs as [|b bs]; [congruence|]. cbn [w_hex app rd_hex]. unfold from_hex.
  rewrite to_hex_len. cbn [length]. destruct (Nat.eqb_spec (2 * S (length bs)) 0); [lia|].
  rewrite Nat.odd_mul. cbn [Nat.odd]. rewrite hex_pairs_to_hex by auto. reflexivity.
Qed.
Lemma rd_w_nat n r : rd_nat (w_nat n :: r) = Some (n, r).
Proof. unfold rd_nat, w_nat. destruct (Z.ltb_spec (Z.of_nat n) 0); [lia|]. rewrite Nat2Z.id. reflexivity. Qed.
Lemma rd_w_N n r : rd_N (w_N n :: r) = Some (n, r).
Proof. unfold rd_N, w_N. destruct (Z.ltb_spec (Z.of_N n) 0); [lia|]. rewrite N2Z.id. reflexivity. Qed.

(** ** Handle managers without their [first_unset] *)
Record Rw (m : hmgr) (a : aspec) : Prop := {
  w_wf : wf (handles m);
  w_live : forall i, wbit (words (handles m)) i = true <-> In i (live a);
  w_nodup : NoDup (live a);
  w_top : top a = num_bits (handles m);
  w_cnt : num_bits_set (handles m) = length (live a) }.

Lemma R_Rw m a : R m a -> Rw m a.
Proof. intros [A B C D E F G H]. constructor; auto. Qed.

Lemma least_free (f : nat -> bool) : forall n, f n = false ->
  exists k, k <= n /\ f k = false /\ forall j, j < k -> f j = true.
Proof.
  induction n as [n IH] using lt_wf_ind. intros H.
  destruct (forallb f (seq 0 n)) eqn:E.
  - exists n. split; [lia|]. split; auto. intros j Hj. rewrite forallb_forall in E. apply E, in_seq. lia.
  - assert (X : exists j, j < n /\ f j = false).
    { clear - E. assert (Q : forall l, forallb f l = false -> exists j, In j l /\ f j = false).
      { induction l as [|x l IH]; cbn; [discriminate|]. destruct (f x) eqn:F; cbn; [|eauto].
        intros Q. destruct (IH Q) as (j & ? & ?). eauto. }
      destruct (Q _ E) as (j & Hj & F). apply in_seq in Hj. exists j. split; [lia|auto]. }
    destruct X as (j & Hj & F). destruct (IH j Hj F) as (k & K1 & K2 & K3). exists k. split; [lia|auto].
Qed.

(** The same bits with the right [first_unset]. *)
Lemma Rw_fix m a : Rw m a -> exists fu, R (mkHmgr (handles m) fu) a.
Proof.
  intros [A B C D E].
  destruct (least_free (wbit (words (handles m))) (num_bits (handles m)) (wf_high _ A _ (le_n _))) as (k & K1 & K2 & K3).
  exists k. constructor; cbn [handles first_unset]; auto.
Qed.
Lemma Rw_R m a : Rw m a -> first_unset m = 0 -> ~ In 0 (live a) -> R m a.
Proof.
  intros [A B C D E] F N. constructor; auto; try lia.
  rewrite F. destruct (wbit (words (handles m)) 0) eqn:Q; auto. apply B in Q. contradiction.
Qed.

(** Marking a free handle; [first_unset] stays 0 even when handle 0 is marked first. *)
Lemma Rw_set m a h : Rw m a -> ~ In h (live a) -> first_unset m = 0 -> (h = 0 -> top a = 0) ->
  exists m', hm_set_handle m h = Some (m', true) /\ Rw m' (mkA (h :: live a) (Nat.max (top a) (S h))) /\
    first_unset m' = 0.
Proof.
  intros H NI FU Z. pose proof H as [W Lv Nd Tp Ct].
  unfold hm_set_handle.
  set (b0 := if num_bits (handles m) <=? h then bs_resize (handles m) (h + 1) else handles m).
  assert (P : wf b0 /\ (forall j, wbit (words b0) j = wbit (words (handles m)) j) /\
              num_bits b0 = Nat.max (num_bits (handles m)) (S h) /\
              num_bits_set b0 = num_bits_set (handles m)).
  { unfold b0. destruct (Nat.leb_spec (num_bits (handles m)) h) as [L|L].
    - destruct (bs_resize_spec (handles m) (h + 1) W ltac:(lia)). split; [auto|split; [auto|]].
      cbn. lia.
    - split; [auto|split; [auto|lia]]. }
  destruct P as (W0 & B0 & N0 & S0).
  destruct (bs_set_spec b0 h W0 ltac:(lia)) as (b & E & Wb & Nb & Sb & Bb). rewrite E.
  assert (T : wbit (words b0) h = false).
  { rewrite B0. destruct (wbit (words (handles m)) h) eqn:Q; auto. apply Lv in Q. contradiction. }
  rewrite T in *. cbn [negb]. eexists; split; [reflexivity|]. split.
  - constructor; cbn [handles live top]; auto.
    + eapply live_cons_iff; [|exact Lv]. intros j. rewrite Bb, B0. auto.
    + constructor; auto.
    + lia.
    + cbn. lia.
  - cbn [first_unset]. rewrite FU. destruct (Nat.eqb_spec 0 h) as [<-|]; auto.
    specialize (Z eq_refl). pose proof (bs_find_unset_next_spec b 0 Wb) as Fn.
    assert (NB : num_bits b = 1) by lia. unfold bs_find_unset_next. rewrite NB. cbn. lia.
Qed.

(** ** Match units that differ in [first_unset] only *)
Section Unit.
Context {V : Type}.

Definition usim (u v : munit V) : Prop :=
  mu_size u = mu_size v /\ mu_num u = mu_num v /\ handles (mu_hm u) = handles (mu_hm v) /\
  mu_meta u = mu_meta v /\ mu_ents u = mu_ents v /\ mu_ls u = mu_ls v.

Lemma hm_valid_sim m m' h : handles m = handles m' -> hm_valid_handle m h = hm_valid_handle m' h.
Proof. intros E. unfold hm_valid_handle. rewrite E. reflexivity. Qed.
Lemma hm_iter_sim m m' : handles m = handles m' -> hm_iterate m = hm_iterate m'.
Proof.
  intros E. unfold hm_iterate. rewrite E.
  generalize (S (num_bits (handles m'))) (bs_find_first (handles m')).
  induction n as [|n IH]; intros [i|]; cbn [hm_iter_from]; auto. rewrite E, IH. reflexivity.
Qed.
Lemma hm_release_sim m m' h : handles m = handles m' ->
  match hm_release_handle m h, hm_release_handle m' h with
  | Some (a, x), Some (b, y) => handles a = handles b /\ x = y
  | None, None => True
  | _, _ => False
  end.
Proof.
  intros E. unfold hm_release_handle. rewrite E. destruct (num_bits (handles m') <=? h); [auto|].
  destruct (bs_reset (handles m') h) as [[b []]|]; cbn; auto.
Qed.

Definition osim {A} (r : option (munit V * A)) (r' : option (munit V * A)) : Prop :=
  match r, r' with
  | Some (u, x), Some (v, y) => usim u v /\ x = y
  | None, None => True
  | _, _ => False
  end.

Lemma usim_resolve u v h : usim u v -> mu_resolve u h = mu_resolve v h.
Proof.
  intros (A & B & C & D & E & F). unfold mu_resolve. rewrite (hm_valid_sim _ _ _ C), E. reflexivity.
Qed.

Lemma usim_delete kd u v h : usim u v -> osim (mu_delete kd u h) (mu_delete kd v h).
Proof.
  intros H. unfold mu_delete. rewrite (usim_resolve _ _ _ H). destruct H as (A & B & C & D & E & F).
  destruct (mu_resolve v h) as [[c|i e]|]; cbn; auto.
  - split; [repeat split; auto|auto].
  - rewrite F. destruct (ls_delete kd (mu_ls v) (e_key e)); cbn; auto.
    pose proof (hm_release_sim _ _ i C) as Q.
    destruct (hm_release_handle (mu_hm u) i) as [[a []]|], (hm_release_handle (mu_hm v) i) as [[b []]|]; cbn; auto;
      destruct Q as [Q1 Q2]; try discriminate; split; auto; repeat split; cbn; auto; congruence.
Qed.

Lemma usim_meta u v h f : usim u v -> osim (mu_on_meta u h f) (mu_on_meta v h f).
Proof.
  intros (A & B & C & D & E & F). unfold mu_on_meta. rewrite (hm_valid_sim _ _ _ C), D.
  destruct (hm_valid_handle (mu_hm v) (handle_internal h)) as [[]|]; cbn; auto.
  - destruct (nth_error (mu_meta v) (handle_internal h)); cbn; auto. split; auto. repeat split; cbn; auto. congruence.
  - repeat split; auto.
Qed.

Lemma usim_step kd nb u v o : usim u v -> ~ is_add o -> osim (mu_step kd nb u o) (mu_step kd nb v o).
Proof.
  intros H NA. pose proof H as (A & B & C & D & E & F). destruct o; cbn [mu_step]; try (exfalso; apply NA; exact I).
  - apply usim_delete; auto.
  - unfold mu_modify. rewrite (usim_resolve _ _ _ H). destruct (mu_resolve v h) as [[c|i e]|]; cbn; auto.
    split; auto. repeat split; cbn; auto. congruence.
  - unfold mu_get_value. rewrite (usim_resolve _ _ _ H). destruct (mu_resolve v h) as [[c|i e]|]; cbn; auto.
  - unfold mu_get_entry. rewrite (usim_resolve _ _ _ H). destruct (mu_resolve v h) as [[c|i e]|]; cbn; auto.
  - unfold mu_retrieve. rewrite F, E. destruct (ls_retrieve kd (mu_ls v) k) as [[i|]|]; cbn; auto.
    destruct (nth_error (mu_ents v) i); cbn; auto.
  - unfold mu_lookup. rewrite F. destruct (ls_lookup kd nb (mu_ls v) key) as [[ls r]|]; cbn; auto.
    unfold mu_hit, with_ls; cbn [mu_ents mu_meta]. rewrite E, D. destruct r as [i|]; cbn.
    + destruct (nth_error (mu_ents v) i); cbn; auto. destruct (nth_error (mu_meta v) _); cbn; auto.
      split; auto. repeat split; cbn; auto; congruence.
    + split; auto. repeat split; cbn; auto.
  - apply usim_meta; auto.
  - unfold mu_sweep. rewrite (hm_iter_sim _ _ C), D. destruct (hm_iterate (mu_hm v)); cbn; auto.
    destruct (sweep (mu_meta v) now l); cbn; auto.
  - apply usim_meta; auto.
  - apply usim_meta; auto.
  - split; auto. repeat split; cbn; auto. congruence.
  - unfold mu_iter. rewrite (hm_iter_sim _ _ C), D. destruct (hm_iterate (mu_hm v)); cbn; auto.
    destruct (map_handles (mu_meta v) l); cbn; auto.
  - rewrite B. split; auto.
  - rewrite (hm_valid_sim _ _ _ C). destruct (hm_valid_handle (mu_hm v) (handle_internal h)); cbn; auto.
  - split; auto. repeat split; cbn; auto; congruence.
Qed.

Lemma usim_run kd nb : forall ops u v, usim u v -> Forall (fun o => ~ is_add o) ops ->
  osim (mu_run kd nb u ops) (mu_run kd nb v ops).
Proof.
  induction ops as [|o ops IH]; intros u v H F; cbn [mu_run]; [split; auto|].
  inversion F as [|? ? Fo Fs]; subst. pose proof (usim_step kd nb _ _ _ H Fo) as Q.
  destruct (mu_step kd nb u o) as [[u1 x]|], (mu_step kd nb v o) as [[v1 y]|]; try contradiction; cbn; auto.
  destruct Q as [Q <-]. pose proof (IH _ _ Q Fs) as P.
  destruct (mu_run kd nb u1 ops) as [[u2 xs]|], (mu_run kd nb v1 ops) as [[v2 ys]|]; try contradiction; cbn; auto.
  destruct P as [P <-]. auto.
Qed.

(** ** Saving and restoring one unit *)
Definition nkey (kd : mkind) (k : mkey) : mkey :=
  match kd with KLpm => mkKey (k_data k) [] (k_plen k) 0 [] | _ => mkKey (k_data k) [] 0 0 [] end.
Definition simple_kind (kd : mkind) : Prop := kd = KExact \/ kd = KLpm.

Lemma nkey_same kd k k' : simple_kind kd -> same_key kd (nkey kd k) (nkey kd k') <-> same_key kd k k'.
Proof. intros [-> | ->]; cbn; tauto. Qed.
Lemma nkey_key_same kd k : simple_kind kd -> key_same kd k (nkey kd k).
Proof. intros [-> | ->]; unfold key_same; cbn; auto. Qed.
Lemma nkey_wf kd nb k : simple_kind kd -> wf_key kd nb k -> wf_key kd nb (nkey kd k).
Proof. intros [-> | ->]; unfold wf_key; cbn; tauto. Qed.
Lemma rd_w_key kd k r : simple_kind kd -> rd_key kd (k_data k) (w_key kd k ++ r) = Some (nkey kd k, r).
Proof. intros [-> | ->]; cbn [w_key app rd_key nkey]; [reflexivity|]. rewrite rd_w_nat. reflexivity. Qed.

Variables (w_val : V -> list tok) (rd_val : list tok -> option (V * list tok)).
Variables (kd : mkind) (nb size : nat) (cache cache' : bool) (now : nat -> N).
Hypothesis size_ok : (N.of_nat size <= 2 ^ 24)%N.
Hypothesis kd_ok : simple_kind kd.
Hypothesis nb_ok : 0 < nb.

Definition res_tab (t : stab V) (hs : list nat) : stab V :=
  mkTab (fun i => if existsb (Nat.eqb i) hs then
           match slot_of t i with
           | Some e => Some (mkSent (nkey kd (s_key e)) (s_val e) (now i) 0 0)
           | None => None
           end else None)
        (fun i => if existsb (Nat.eqb i) hs then gen t i else 0)
        (fun i => if existsb (Nat.eqb i) hs then ttl t i else 0%N).

Lemma eqb_in i l : existsb (Nat.eqb i) l = true <-> In i l.
Proof.
  rewrite existsb_exists. split.
  - intros (x & I & E). apply Nat.eqb_eq in E. subst. auto.
  - intros I. exists i. split; auto. apply Nat.eqb_refl.
Qed.
Lemma eqb_snoc i l h : existsb (Nat.eqb i) (l ++ [h]) = (existsb (Nat.eqb i) l || (i =? h))%bool.
Proof. rewrite existsb_app. cbn. rewrite orb_false_r. reflexivity. Qed.

Record RI (t : stab V) (pre : list nat) (u : munit V) : Prop := {
  ri_size : mu_size u = size;
  ri_hm : exists tp, Rw (mu_hm u) (mkA (rev pre) tp) /\ (pre = [] -> tp = 0);
  ri_fu : first_unset (mu_hm u) = 0;
  ri_elen : length (mu_ents u) = size;
  ri_mlen : length (mu_meta u) = size;
  ri_ents : forall i e, nth_error (mu_ents u) i = Some e ->
      e_ver e = ver_of (gen (res_tab t pre) i) /\
      forall s, slot_of (res_tab t pre) i = Some s -> e_key e = s_key s /\ e_val e = Some (s_val s);
  ri_meta : forall i m, nth_error (mu_meta u) i = Some m ->
      m_ttl m = ttl (res_tab t pre) i /\
      forall s, slot_of (res_tab t pre) i = Some s ->
        m_ts m = s_ts s /\ m_bytes m = s_bytes s /\ m_pkts m = s_pkts s /\ m_ver m = ver_of (gen (res_tab t pre) i);
  ri_ls : exists a, LSR kd nb size cache' (mu_ls u) a /\
      forall i k, In (i, k) a <-> exists s, slot_of (res_tab t pre) i = Some s /\ s_key s = k }.

Lemma RI_new t n : let u := mu_new kd size cache' in
  RI t [] (mkMU (mu_size u) n (mu_hm u) (mu_meta u) (mu_ents u) (mu_ls u)).
Proof.
  pose proof (@MR_new V kd nb size cache') as M. cbv zeta. destruct M as [A B C D E F G H I].
  constructor; cbn [mu_size mu_num mu_hm mu_meta mu_ents mu_ls]; auto.
  - exists 0. split; auto. exact (R_Rw _ _ R_empty).
Qed.

Lemma forget_simple ls h a : LSR kd nb size cache' ls a -> ls_forget ls h = ls.
Proof. destruct kd_ok as [K | K]; intros (_ & _ & _ & M); rewrite K in M; destruct ls; try contradiction; reflexivity. Qed.

Lemma slot_snoc t pre h e i : slot_of t h = Some e -> ~ In h pre ->
  slot_of (res_tab t (pre ++ [h])) i =
  if i =? h then Some (mkSent (nkey kd (s_key e)) (s_val e) (now h) 0 0) else slot_of (res_tab t pre) i.
Proof.
  intros E N. cbn [res_tab slot_of]. rewrite eqb_snoc. destruct (Nat.eqb_spec i h) as [->|D].
  - rewrite orb_true_r, E. reflexivity.
  - rewrite orb_false_r. reflexivity.
Qed.
Lemma gen_snoc t pre h i : ~ In h pre ->
  gen (res_tab t (pre ++ [h])) i = if i =? h then gen t h else gen (res_tab t pre) i.
Proof.
  intros N. cbn [res_tab gen]. rewrite eqb_snoc. destruct (Nat.eqb_spec i h) as [->|D].
  - rewrite orb_true_r. reflexivity.
  - rewrite orb_false_r. reflexivity.
Qed.
Lemma ttl_snoc t pre h i : ~ In h pre ->
  ttl (res_tab t (pre ++ [h])) i = if i =? h then ttl t h else ttl (res_tab t pre) i.
Proof.
  intros N. cbn [res_tab ttl]. rewrite eqb_snoc. destruct (Nat.eqb_spec i h) as [->|D].
  - rewrite orb_true_r. reflexivity.
  - rewrite orb_false_r. reflexivity.
Qed.

Lemma entry_ok last u0 t pre u h e : MR kd nb size cache last u0 t -> RI t pre u ->
  slot_of t h = Some e -> Forall (fun i => i < h) pre ->
  (forall r, rd_val (w_val (s_val e) ++ r) = Some (s_val e, r)) ->
  exists ws, w_entry w_val kd u0 h = Some ws /\
    forall r, exists u', rd_entry rd_val kd now u (ws ++ r) = Some (u', r) /\ RI t (pre ++ [h]) u' /\
      mu_num u' = mu_num u.
Proof.
  intros M H E P RT.
  assert (HL : h < size) by (apply (mr_lt _ _ _ _ _ _ _ M); congruence).
  destruct (nthx (mu_ents u0) h size (mr_elen _ _ _ _ _ _ _ M) HL) as (en & En).
  destruct (nthx (mu_meta u0) h size (mr_mlen _ _ _ _ _ _ _ M) HL) as (me & Me).
  destruct (mr_ents _ _ _ _ _ _ _ M _ _ En) as [Ev Ekv]. destruct (Ekv _ E) as [Ek Eva].
  destruct (mr_meta _ _ _ _ _ _ _ M _ _ Me) as [Mt Mr]. destruct (Mr _ E) as (_ & _ & _ & Mv).
  destruct (mr_ls _ _ _ _ _ _ _ M) as (a0 & L0 & C0). pose proof L0 as (So0 & Wf0 & Un0 & _).
  assert (I0 : In (h, s_key e) a0) by (apply C0; eauto).
  pose proof (Wf0 _ _ I0) as Wk. pose proof Wk as (Wk1 & Wk2 & _).
  unfold w_entry. rewrite En, Me, Eva, Mv, Ev, N.eqb_refl, Mt, Ek.
  eexists. split; [reflexivity|]. intros r.
  assert (NI : ~ In h pre) by (intros X; rewrite Forall_forall in P; specialize (P _ X); lia).
  destruct (ri_hm _ _ _ H) as (tp & Rh & Tp).
  destruct (Rw_set (mu_hm u) _ h Rh) as (hm' & Sh & Rh' & Fu').
  { cbn. rewrite <- in_rev. exact NI. }
  { exact (ri_fu _ _ _ H). }
  { intros ->. cbn. apply Tp. destruct P; auto. lia. }
  destruct (ri_ls _ _ _ H) as (a & La & Ca).
  assert (Na : ~ In h (map fst a)).
  { intros X. apply in_map_iff in X. destruct X as ((i & k) & Eq & X). cbn in Eq. subst i. apply Ca in X.
    destruct X as (s & Xs & _). cbn in Xs. destruct (existsb (Nat.eqb h) pre) eqn:Q; [|discriminate].
    apply eqb_in in Q. exact (NI Q). }
  assert (Inv : forall i k, In (i, k) a -> exists e', slot_of t i = Some e' /\ k = nkey kd (s_key e') /\ In i pre).
  { intros i k X. apply Ca in X. destruct X as (s & Xs & <-). cbn in Xs.
    destruct (existsb (Nat.eqb i) pre) eqn:Q; [|discriminate].
    apply eqb_in in Q. destruct (slot_of t i) as [e'|]; [|discriminate]. injection Xs as <-. exists e'. auto. }
  destruct (ls_add_ok kd nb size cache' (mu_ls u) a (nkey kd (s_key e)) h La) as (ls' & Ls & La'); auto.
  { apply nkey_wf; auto. }
  { intros i k X Sk. destruct (Inv _ _ X) as (e' & Xe & -> & Ip). apply (proj1 (nkey_same kd _ _ kd_ok)) in Sk.
    assert (i = h) by (eapply Un0; [apply C0; eauto|exact I0|exact Sk]). subst i. auto. }
  { intros [K|K]; destruct kd_ok; congruence. }
  unfold rd_entry. cbn [app]. rewrite rd_w_nat, Sh, rd_w_N, <- !app_assoc.
  rewrite rd_w_hex; [|auto|intros X; rewrite X in Wk2; cbn in Wk2; lia].
  rewrite rd_w_key by auto. rewrite RT. rewrite (ri_elen _ _ _ H).
  destruct (Nat.ltb_spec h size); [|lia]. rewrite Ls.
  destruct (nthx (mu_meta u) h size (ri_mlen _ _ _ H) HL) as (m1 & Em1). rewrite Em1.
  cbn [app]. rewrite rd_w_N. rewrite (forget_simple _ _ _ La').
  eexists. split; [reflexivity|]. split; [|reflexivity].
  constructor; cbn [mu_size mu_num mu_hm mu_meta mu_ents mu_ls].
  - apply (ri_size _ _ _ H).
  - rewrite rev_app_distr. cbn [rev app]. eexists. split; [exact Rh'|]. intros X. destruct pre; discriminate.
  - exact Fu'.
  - rewrite list_set_length. apply (ri_elen _ _ _ H).
  - rewrite list_set_length. apply (ri_mlen _ _ _ H).
  - intros i x X. rewrite gen_snoc, (slot_snoc _ _ _ _ _ E NI) by auto.
    destruct (Nat.eqb_spec i h) as [->|D].
    + rewrite nth_error_list_set_eq in X by (rewrite (ri_elen _ _ _ H); auto). injection X as <-. cbn.
      split; auto. intros s Q. injection Q as <-. auto.
    + rewrite nth_error_list_set_neq in X by auto. exact (ri_ents _ _ _ H _ _ X).
  - intros i x X. rewrite gen_snoc, ttl_snoc, (slot_snoc _ _ _ _ _ E NI) by auto.
    destruct (Nat.eqb_spec i h) as [->|D].
    + rewrite nth_error_list_set_eq in X by (rewrite (ri_mlen _ _ _ H); auto). injection X as <-. cbn.
      split; auto. intros s Q. injection Q as <-. auto.
    + rewrite nth_error_list_set_neq in X by auto. exact (ri_meta _ _ _ H _ _ X).
  - exists (smap_put Nat.ltb h (nkey kd (s_key e)) a). split; [exact La'|]. intros i k.
    rewrite in_put; [|apply La|auto]. rewrite (slot_snoc _ _ _ _ _ E NI).
    destruct (Nat.eqb_spec i h) as [->|D].
    + split.
      * intros [[_ ->]|X]; [eexists; split; [reflexivity|reflexivity]|].
        exfalso. apply Na. apply in_map_iff. exists (h, k); auto.
      * intros (s & Q & <-). injection Q as <-. auto.
    + rewrite <- Ca. split; [intros [[? _]|X]; [congruence|auto]|auto].
Qed.

Lemma entries_ok last u0 t : MR kd nb size cache last u0 t ->
  (forall i e r, slot_of t i = Some e -> rd_val (w_val (s_val e) ++ r) = Some (s_val e, r)) ->
  forall hs pre u, RI t pre u -> StronglySorted lt (pre ++ hs) ->
  (forall i, In i hs -> slot_of t i <> None) ->
  exists ws, w_entries w_val kd u0 hs = Some ws /\
    forall r, exists u', rd_entries rd_val kd now (length hs) u (ws ++ r) = Some (u', r) /\ RI t (pre ++ hs) u' /\
      mu_num u' = mu_num u.
Proof.
  intros M RT. induction hs as [|h hs IH]; intros pre u H So Lv; cbn [w_entries length rd_entries].
  - exists []. split; auto. intros r. exists u. rewrite app_nil_r. auto.
  - destruct (slot_of t h) as [e|] eqn:E; [|exfalso; exact (Lv h (or_introl eq_refl) E)].
    assert (P : Forall (fun i => i < h) pre).
    { clear - So. induction pre as [|x pre IH]; [constructor|]. cbn in So. inversion So as [|? ? S1 S2]; subst.
      constructor; auto. rewrite Forall_forall in S2. apply S2, in_or_app. right. left. auto. }
    destruct (entry_ok _ _ _ _ _ _ _ M H E P (fun r => RT _ _ r E)) as (wa & Wa & Ra).
    rewrite Wa.
    (* the words do not depend on the unit restored into: take any *)
    destruct (Ra []) as (u1 & _ & H1 & _).
    destruct (IH (pre ++ [h]) u1) as (wb & Wb & _).
    { exact H1. } { rewrite <- app_assoc. exact So. } { intros i I. apply Lv. right. auto. }
    rewrite Wb. eexists. split; [reflexivity|]. intros r. rewrite <- app_assoc.
    destruct (Ra (wb ++ r)) as (u2 & E2 & H2 & N2). rewrite E2.
    destruct (IH (pre ++ [h]) u2) as (wb' & Wb' & Rb).
    { exact H2. } { rewrite <- app_assoc. exact So. } { intros i I. apply Lv. right. auto. }
    rewrite Wb in Wb'. injection Wb' as <-.
    destruct (Rb r) as (u3 & E3 & H3 & N3). exists u3. rewrite <- app_assoc in H3. cbn [app] in H3.
    split; [exact E3|]. split; [exact H3|congruence].
Qed.

Definition last_of (hs : list nat) : N := fold_right (fun i m => N.max (now i) m) 0%N hs.
Lemma last_of_ge hs i : In i hs -> (now i <= last_of hs)%N.
Proof. induction hs as [|h hs IH]; [intros []|]. cbn [In last_of fold_right]. fold (last_of hs). intros [->|I]; [lia|]. specialize (IH I). lia. Qed.

Lemma last_of_le hs m : (forall i, (now i <= m)%N) -> (last_of hs <= m)%N.
Proof.
  clear size_ok kd_ok nb_ok. intros H. induction hs as [|h hs IH]; cbn [last_of fold_right]; [lia|]. fold (last_of hs). specialize (H h). lia.
Qed.

Lemma unit_ok last u0 t : MR kd nb size cache last u0 t ->
  (forall i e r, slot_of t i = Some e -> rd_val (w_val (s_val e) ++ r) = Some (s_val e, r)) ->
  exists ws hs, mu_save w_val kd u0 = Some ws /\ enumerates t hs /\
    forall r, exists u v t', mu_restore rd_val kd now (mu_new kd size cache') (ws ++ r) = Some (u, r) /\
      usim u v /\ MR kd nb size cache' (last_of hs) v t' /\ restored kd now t t' /\
      (forall i e, slot_of t i = Some e -> exists e', slot_of t' i = Some e' /\ s_key e' = nkey kd (s_key e)) /\
      (slot_of t 0 = None -> v = u).
Proof.
  intros M RT. destruct (enumerates_ok _ _ _ _ _ _ _ M) as (hs & Ei & (So & In_hs) & Ln).
  destruct (entries_ok _ _ _ M RT hs [] _ (RI_new t (length hs)) So) as (ws & Ws & Rs).
  { intros i. apply In_hs. }
  unfold mu_save. rewrite Ei, Ws. exists (w_nat (mu_num u0) :: ws), hs. split; [reflexivity|]. split; [split; auto|].
  intros r. cbn [app]. unfold mu_restore. rewrite rd_w_nat, <- Ln.
  destruct (Rs r) as (u & Eu & H & Nu). rewrite Eu. cbn [app] in H.
  destruct (ri_hm _ _ _ H) as (tp & Rh & _).
  set (t' := res_tab t hs).
  assert (Sl : forall i, slot_of t' i = match slot_of t i with
      | Some e => Some (mkSent (nkey kd (s_key e)) (s_val e) (now i) 0 0) | None => None end).
  { intros i. unfold t'. cbn. destruct (existsb (Nat.eqb i) hs) eqn:Q; auto.
    destruct (slot_of t i) eqn:E; auto. exfalso. apply not_true_iff_false in Q. apply Q, eqb_in, In_hs. congruence. }
  assert (MRv : forall hm, R hm (mkA (rev hs) tp) ->
     MR kd nb size cache' (last_of hs) (mkMU (mu_size u) (mu_num u) hm (mu_meta u) (mu_ents u) (mu_ls u)) t').
  { intros hm Rhm. destruct H as [A B C D E F G I].
    constructor; cbn [mu_size mu_num mu_hm mu_meta mu_ents mu_ls]; auto.
    - exists (mkA (rev hs) tp). split; auto. cbn [live]. split.
      + rewrite rev_length. exact Nu.
      + intros i. rewrite <- in_rev, In_hs, Sl. destruct (slot_of t i); split; congruence.
    - intros i X. apply (mr_lt _ _ _ _ _ _ _ M). rewrite Sl in X. destruct (slot_of t i); congruence.
    - intros i s X. rewrite Sl in X. destruct (slot_of t i) eqn:Q; [|discriminate]. injection X as <-. cbn.
      apply last_of_ge, In_hs. congruence. }
  assert (Rst : restored kd now t t').
  { intros i. rewrite Sl. destruct (slot_of t i) as [e|] eqn:Q.
    - eexists. split; [reflexivity|]. cbn [s_key s_val s_ts s_bytes s_pkts].
      assert (X : existsb (Nat.eqb i) hs = true) by (apply eqb_in, In_hs; congruence).
      unfold t'. cbn [res_tab gen ttl]. rewrite X. split; [apply nkey_key_same; auto|]. repeat split.
    - assert (X : existsb (Nat.eqb i) hs = false).
      { apply not_true_iff_false. rewrite eqb_in, In_hs. congruence. }
      unfold t'. cbn [res_tab gen ttl]. rewrite X. auto. }
  assert (Ky : forall i e, slot_of t i = Some e -> exists e', slot_of t' i = Some e' /\ s_key e' = nkey kd (s_key e)).
  { intros i e Q. rewrite Sl, Q. eexists. split; reflexivity. }
  destruct (slot_of t 0) as [e0|] eqn:Z.
  - destruct (Rw_fix _ _ Rh) as (fu & Rf). exists u. eexists. exists t'.
    split; [reflexivity|]. split; [|split; [exact (MRv _ Rf)|split; [exact Rst|split; [exact Ky|discriminate]]]].
    repeat split.
  - assert (Rf : R (mu_hm u) (mkA (rev hs) tp)).
    { apply Rw_R; auto. apply (ri_fu _ _ _ H). cbn. rewrite <- in_rev, In_hs. congruence. }
    exists u, u, t'. split; [reflexivity|]. split; [repeat split|].
    split; [|split; [exact Rst|auto]]. specialize (MRv _ Rf). destruct u. exact MRv.
Qed.
End Unit.
