(** Proofs about save and restore: action profiles, indirect tables, the whole switch. *)
From Coq Require Import List Arith NArith ZArith Bool Lia Sorted.
From Verif Require Import Base Bits Bytes EntryListModel EntryListProofs MatchUnitModel MatchUnitSpec MatchUnitProofs
  MatchUnitConseq KeyBuilderModel TableModel TableSpec HandleMgrModel HandleMgrSpec HandleMgrProofs ProfileModel ProfileSpec
  ProfileProofs ProfileProofs2 ProfileProofs3 ProfileProofs4 SerialModel SerialSpec SerialProofs SerialProofs2.
Import ListNotations.

(** ** Switches that differ in [first_unset] only *)
Definition psim (p q : prof) : Prop :=
  handles (p_mh p) = handles (p_mh q) /\ handles (p_gh p) = handles (p_gh q) /\ p_ents p = p_ents q /\
  p_mc p = p_mc q /\ p_gc p = p_gc q /\ p_groups p = p_groups q /\ p_nm p = p_nm q /\ p_ng p = p_ng q.
Definition isim (a b : itab) : Prop := usim (it_unit a) (it_unit b) /\ it_def a = it_def b.
Definition wsim (w v : world) : Prop := psim (w_prof w) (w_prof v) /\ Forall2 isim (w_tabs w) (w_tabs v).

Definition rsim {S A} (rel : S -> S -> Prop) (r r' : option (S * A)) : Prop :=
  match r, r' with
  | Some (a, x), Some (b, y) => rel a b /\ x = y
  | None, None => True
  | _, _ => False
  end.

Ltac pdes p q H :=
  destruct p as [mh gh es mc gc gs nm ng], q as [mh' gh' es' mc' gc' gs' nm' ng'];
  cbn [psim p_mh p_gh p_ents p_mc p_gc p_groups p_nm p_ng] in H;
  destruct H as (Hm & Hg & H1 & H2 & H3 & H4 & H5 & H6); cbn in Hm, Hg, H1, H2, H3, H4, H5, H6; subst es' mc' gc' gs' nm' ng'.

Lemma psim_refl p : psim p p. Proof. repeat split. Qed.
Lemma psim_del_member p q m : psim p q -> rsim psim (p_del_member p m) (p_del_member q m).
Proof.
  intros H. pdes p q H. unfold p_del_member; cbn [p_mh p_gh p_ents p_mc p_gc p_groups p_nm p_ng].
  rewrite (hm_valid_sim _ _ m Hm). destruct (hm_valid_handle mh' m) as [[]|]; cbn; auto.
  2: repeat split; auto.
  destruct (nth_error mc m); cbn; auto. destruct (0 <? n)%N; [cbn; repeat split; auto|].
  pose proof (hm_release_sim mh mh' m Hm) as Q.
  destruct (hm_release_handle mh m) as [[a []]|], (hm_release_handle mh' m) as [[b []]|]; cbn in *; auto;
    destruct Q as [Q1 Q2]; try discriminate; repeat split; auto.
Qed.
Lemma psim_del_group p q m : psim p q -> rsim psim (p_del_group p m) (p_del_group q m).
Proof.
  intros H. pdes p q H. unfold p_del_group; cbn [p_mh p_gh p_ents p_mc p_gc p_groups p_nm p_ng].
  rewrite (hm_valid_sim _ _ m Hg). destruct (hm_valid_handle gh' m) as [[]|]; cbn; auto.
  2: repeat split; auto.
  destruct (nth_error gc m); cbn; auto. destruct (nth_error gs m); cbn; auto.
  destruct (0 <? n)%N; [cbn; repeat split; auto|]. destruct (dec_all mc l); cbn; auto.
  pose proof (hm_release_sim gh gh' m Hg) as Q.
  destruct (hm_release_handle gh m) as [[a []]|], (hm_release_handle gh' m) as [[b []]|]; cbn in *; auto;
    destruct Q as [Q1 Q2]; try discriminate; repeat split; auto.
Qed.
Lemma psim_mod_member np p q m fn data : psim p q ->
  rsim psim (p_mod_member np p m fn data) (p_mod_member np q m fn data).
Proof.
  intros H. pdes p q H. unfold p_mod_member; cbn [p_mh p_gh p_ents p_mc p_gc p_groups p_nm p_ng].
  rewrite (hm_valid_sim _ _ m Hm). destruct (negb _); [cbn; repeat split; auto|].
  destruct (hm_valid_handle mh' m) as [[]|]; [|cbn; repeat split; auto|exact I].
  destruct (m <? length es); cbn; auto. repeat split; auto.
Qed.
Lemma psim_join p q m g : psim p q -> rsim psim (p_join p m g) (p_join q m g).
Proof.
  intros H. pdes p q H. unfold p_join, p_group_upd; cbn [p_mh p_gh p_ents p_mc p_gc p_groups p_nm p_ng].
  rewrite (hm_valid_sim _ _ m Hm), (hm_valid_sim _ _ g Hg).
  destruct (hm_valid_handle mh' m) as [[]|], (hm_valid_handle gh' g) as [[]|]; cbn; auto; try (repeat split; auto; fail).
  destruct (nth_error gs g); cbn; auto. destruct (set_mem m l); [cbn; repeat split; auto|].
  destruct (cnt_inc mc m); cbn; auto. repeat split; auto.
Qed.
Lemma psim_leave p q m g : psim p q -> rsim psim (p_leave p m g) (p_leave q m g).
Proof.
  intros H. pdes p q H. unfold p_leave, p_group_upd; cbn [p_mh p_gh p_ents p_mc p_gc p_groups p_nm p_ng].
  rewrite (hm_valid_sim _ _ m Hm), (hm_valid_sim _ _ g Hg).
  destruct (hm_valid_handle mh' m) as [[]|], (hm_valid_handle gh' g) as [[]|]; cbn; auto; try (repeat split; auto; fail).
  destruct (nth_error gs g); cbn; auto. destruct (set_mem m l); [|cbn; repeat split; auto].
  destruct (cnt_dec mc m); cbn; auto. repeat split; auto.
Qed.
Lemma psim_get_member p q m : psim p q -> rsim psim (p_get_member p m) (p_get_member q m).
Proof.
  intros H. pdes p q H. unfold p_get_member; cbn [p_mh p_gh p_ents p_mc p_gc p_groups p_nm p_ng].
  rewrite (hm_valid_sim _ _ m Hm). destruct (hm_valid_handle mh' m) as [[]|]; cbn; auto. 2: repeat split; auto.
  destruct (nth_error es m) as [[fn data]|]; cbn; auto. repeat split; auto.
Qed.
Lemma psim_get_group p q m f : psim p q -> rsim psim (p_get_group p m f) (p_get_group q m f).
Proof.
  intros H. pdes p q H. unfold p_get_group; cbn [p_mh p_gh p_ents p_mc p_gc p_groups p_nm p_ng].
  rewrite (hm_valid_sim _ _ m Hg). destruct (hm_valid_handle gh' m) as [[]|]; cbn; auto. 2: repeat split; auto.
  destruct (nth_error gs m); cbn; auto. repeat split; auto.
Qed.
Lemma psim_get_members p q : psim p q -> rsim psim (p_get_members p) (p_get_members q).
Proof.
  intros H. pdes p q H. unfold p_get_members; cbn [p_mh p_gh p_ents p_mc p_gc p_groups p_nm p_ng].
  rewrite (hm_iter_sim _ _ Hm). destruct (hm_iterate mh'); cbn; auto. destruct (length l =? nm); cbn; auto.
  destruct (zip_at es l); cbn; auto. repeat split; auto.
Qed.
Lemma psim_get_groups p q : psim p q -> rsim psim (p_get_groups p) (p_get_groups q).
Proof.
  intros H. pdes p q H. unfold p_get_groups; cbn [p_mh p_gh p_ents p_mc p_gc p_groups p_nm p_ng].
  rewrite (hm_iter_sim _ _ Hg). destruct (hm_iterate gh'); cbn; auto. destruct (length l =? ng); cbn; auto.
  destruct (zip_at gs l); cbn; auto. repeat split; auto.
Qed.
Definition osimp (r r' : option prof) : Prop :=
  match r, r' with Some a, Some b => psim a b | None, None => True | _, _ => False end.
Lemma psim_inc p q x : psim p q -> osimp (ref_inc p x) (ref_inc q x).
Proof.
  intros H. pdes p q H. unfold ref_inc; destruct x; cbn [p_mh p_gh p_ents p_mc p_gc p_groups p_nm p_ng].
  - destruct (cnt_inc mc m); cbn; auto. repeat split; auto.
  - destruct (cnt_inc gc g); cbn; auto. repeat split; auto.
Qed.
Lemma psim_dec p q x : psim p q -> osimp (ref_dec p x) (ref_dec q x).
Proof.
  intros H. pdes p q H. unfold ref_dec; destruct x; cbn [p_mh p_gh p_ents p_mc p_gc p_groups p_nm p_ng].
  - destruct (cnt_dec mc m); cbn; auto. repeat split; auto.
  - destruct (cnt_dec gc g); cbn; auto. repeat split; auto.
Qed.
Lemma psim_drop p q d : psim p q -> osimp (drop_default p d) (drop_default q d).
Proof. intros H. destruct d; cbn [drop_default]; [apply psim_dec; auto|exact H]. Qed.
Lemma psim_valid p q x : psim p q -> valid_idx p x = valid_idx q x.
Proof.
  intros (Hm & Hg & _). unfold valid_idx. destruct x; [rewrite (hm_valid_sim _ _ _ Hm)|rewrite (hm_valid_sim _ _ _ Hg)]; reflexivity.
Qed.
Lemma psim_empty p q x : psim p q -> empty_idx p x = empty_idx q x.
Proof. intros H. unfold empty_idx. destruct x; auto. replace (p_groups q) with (p_groups p) by apply H. reflexivity. Qed.
Lemma psim_check p q x : psim p q -> check_idx p x = check_idx q x.
Proof. intros H. unfold check_idx. rewrite (psim_valid _ _ _ H), (psim_empty _ _ _ H). reflexivity. Qed.
Lemma psim_lookup p q x h : psim p q -> p_lookup p x h = p_lookup q x h.
Proof.
  intros H. pdes p q H. unfold p_lookup; cbn [p_mh p_gh p_ents p_mc p_gc p_groups p_nm p_ng].
  destruct x as [m|g].
  - rewrite (hm_valid_sim _ _ m Hm). reflexivity.
  - rewrite (hm_valid_sim _ _ g Hg). destruct (hm_valid_handle gh' g) as [[]|]; auto.
    destruct (nth_error gs g); auto. destruct (choose l h) as [m|]; auto. rewrite (hm_valid_sim _ _ m Hm). reflexivity.
Qed.

Lemma Forall2_set {A} (P : A -> A -> Prop) l l' : Forall2 P l l' -> forall j x y, P x y ->
  Forall2 P (list_set l j x) (list_set l' j y).
Proof.
  induction 1 as [|a b l l' H F IH]; intros [|j] x y Q; cbn; constructor; auto.
Qed.
Lemma Forall2_nth_err {A} (P : A -> A -> Prop) l l' : Forall2 P l l' -> forall j,
  match nth_error l j, nth_error l' j with Some a, Some b => P a b | None, None => True | _, _ => False end.
Proof. induction 1; intros [|j]; cbn; auto. apply IHForall2. Qed.

Lemma on_prof_sim w v r r' : wsim w v -> rsim psim r r' -> rsim wsim (on_prof w r) (on_prof v r').
Proof.
  intros (P & T) H. destruct r as [[p x]|], r' as [[q y]|]; try contradiction; cbn; auto.
  destruct H as [H <-]. split; [split; auto|auto].
Qed.
Lemma wset_sim w v j p q t t' : wsim w v -> psim p q -> isim t t' -> wsim (set_tab w j p t) (set_tab v j q t').
Proof. intros (_ & T) P I. split; [exact P|]. apply Forall2_set; auto. Qed.

Lemma wsim_step np cs w v o : wsim w v -> ~ is_padd o -> rsim wsim (w_step np cs w o) (w_step np cs v o).
Proof.
  intros H NA. pose proof H as (P & T).
  assert (OT : forall j f g, (forall c t t', isim t t' -> rsim wsim (f c t) (g c t')) ->
     rsim wsim (on_tab cs w j f) (on_tab cs v j g)).
  { intros j f g FG. unfold on_tab. pose proof (Forall2_nth_err _ _ _ T j) as Q. destruct (nth_error cs j); cbn; auto.
    destruct (nth_error (w_tabs w) j), (nth_error (w_tabs v) j); try contradiction; cbn; auto. }
  assert (GV : forall (t t' : itab) h, isim t t' -> osim (mu_get_value (it_unit t) h) (mu_get_value (it_unit t') h)).
  { intros t t' h (U & _). apply (usim_step KExact 0 _ _ (MGet h) U). auto. }
  destruct o; cbn [w_step]; try (exfalso; apply NA; exact I).
  - apply on_prof_sim; auto. apply psim_del_member; auto.
  - apply on_prof_sim; auto. apply psim_mod_member; auto.
  - apply on_prof_sim; auto. apply psim_del_group; auto.
  - apply on_prof_sim; auto. apply psim_join; auto.
  - apply on_prof_sim; auto. apply psim_leave; auto.
  - apply on_prof_sim; auto. apply psim_get_member; auto.
  - apply on_prof_sim; auto. apply psim_get_group; auto.
  - apply on_prof_sim; auto. apply psim_get_group; auto.
  - apply on_prof_sim; auto. apply psim_get_members; auto.
  - apply on_prof_sim; auto. apply psim_get_groups; auto.
  - cbn. split; auto. f_equal. apply P.
  - cbn. split; auto. f_equal. apply P.
  - cbn. split; auto. split; auto. repeat split; cbn; auto; try apply P.
  - apply OT. intros c t t' IT. unfold i_del. pose proof (GV _ _ h IT) as Q.
    destruct (mu_get_value (it_unit t) h) as [[u x]|], (mu_get_value (it_unit t') h) as [[u' y]|]; try contradiction; cbn; auto.
    destruct Q as [_ <-]. destruct x as [| |[x|]| | | | | | | |]; cbn; auto.
    pose proof (psim_dec _ _ x P) as Q. destruct (ref_dec (w_prof w) x), (ref_dec (w_prof v) x); try contradiction; cbn; auto.
    destruct IT as (U & D). pose proof (usim_delete (ic_kd c) _ _ h U) as Q2.
    destruct (mu_delete (ic_kd c) (it_unit t) h) as [[a y]|], (mu_delete (ic_kd c) (it_unit t') h) as [[b z]|]; try contradiction; cbn; auto.
    destruct Q2 as [Q2 <-]. destruct y as [[]| | | | | | | | | |]; cbn; auto; (split; [|auto]); apply wset_sim; auto; split; auto.
  - apply OT. intros c t t' IT. unfold i_mod. pose proof (GV _ _ h IT) as Q.
    destruct (mu_get_value (it_unit t) h) as [[u y]|], (mu_get_value (it_unit t') h) as [[u' z]|]; try contradiction; cbn; auto.
    destruct Q as [_ <-]. destruct y as [| |[old|]| | | | | | | |]; cbn; auto.
    pose proof (psim_dec _ _ old P) as Q. destruct (ref_dec (w_prof w) old) as [p|], (ref_dec (w_prof v) old) as [q|]; try contradiction; cbn; auto.
    rewrite (psim_check _ _ x Q). destruct (check_idx q x) as [[e|]|]; cbn; auto.
    { split; [split; auto|auto]. }
    pose proof (psim_inc _ _ x Q) as Q3. destruct (ref_inc p x), (ref_inc q x); try contradiction; cbn; auto.
    destruct IT as (U & D). pose proof (usim_step KExact 0 _ _ (MMod h x) U ltac:(auto)) as Q2. cbn [mu_step] in Q2.
    destruct (mu_modify (it_unit t) h x) as [[a y]|], (mu_modify (it_unit t') h x) as [[b z]|]; try contradiction; cbn; auto.
    destruct Q2 as [Q2 <-]. destruct y as [[]| | | | | | | | | |]; cbn; auto; (split; [|auto]); apply wset_sim; auto; split; auto.
  - apply OT. intros c t t' IT. unfold i_set_default. destruct (c_const_entry (ic_cfg c)); [cbn; auto|].
    rewrite (psim_valid _ _ x P). destruct (valid_idx (w_prof v) x) as [[e|]|]; cbn; auto.
    destruct IT as (U & D). rewrite D. pose proof (psim_drop _ _ (it_def t') P) as Q.
    destruct (drop_default (w_prof w) (it_def t')), (drop_default (w_prof v) (it_def t')); try contradiction; cbn; auto.
    pose proof (psim_inc _ _ x Q) as Q2. destruct (ref_inc p x), (ref_inc p0 x); try contradiction; cbn; auto.
    split; auto. apply wset_sim; auto. split; auto.
  - apply OT. intros c t t' IT. unfold i_reset_default. destruct IT as (U & D). rewrite D.
    pose proof (psim_drop _ _ (it_def t') P) as Q.
    destruct (drop_default (w_prof w) (it_def t')), (drop_default (w_prof v) (it_def t')); try contradiction; cbn; auto.
    split; auto. apply wset_sim; auto. split; auto.
  - apply OT. intros c t t' IT. unfold i_get. pose proof (GV _ _ h IT) as Q.
    destruct (mu_get_value (it_unit t) h) as [[u x]|], (mu_get_value (it_unit t') h) as [[u' y]|]; try contradiction; cbn; auto.
    destruct Q as [_ <-]. destruct x as [| |[x|]| | | | | | | |]; cbn; auto.
  - apply OT. intros c t t' IT. unfold i_get_default. destruct IT as (U & D). rewrite D. destruct (it_def t'); cbn; auto.
  - apply OT. intros c t t' IT. unfold i_apply. destruct IT as (U & D).
    assert (FIN : forall u u' hit x, usim u u' ->
      rsim wsim
       (match empty_idx (w_prof w) x with
        | None => None
        | Some true => Some (set_tab w j (w_prof w) (mkIT u (it_def t)), PEmptyGroup hit)
        | Some false => match p_lookup (w_prof w) x hash with
          | None => None
          | Some (fn, data) =>
            match match hit with Some _ => next_node (ic_cfg c) fn | None => next_node_default (ic_cfg c) fn end with
            | None => None
            | Some nn => Some (set_tab w j (w_prof w) (mkIT u (it_def t)), PApplied hit (Some fn) data nn)
            end end end)
       (match empty_idx (w_prof v) x with
        | None => None
        | Some true => Some (set_tab v j (w_prof v) (mkIT u' (it_def t')), PEmptyGroup hit)
        | Some false => match p_lookup (w_prof v) x hash with
          | None => None
          | Some (fn, data) =>
            match match hit with Some _ => next_node (ic_cfg c) fn | None => next_node_default (ic_cfg c) fn end with
            | None => None
            | Some nn => Some (set_tab v j (w_prof v) (mkIT u' (it_def t')), PApplied hit (Some fn) data nn)
            end end end)).
    { intros u u' hit x Uu. rewrite (psim_empty _ _ x P), (psim_lookup _ _ x hash P), D.
      assert (WS : wsim (set_tab w j (w_prof w) (mkIT u (it_def t'))) (set_tab v j (w_prof v) (mkIT u' (it_def t')))).
      { apply wset_sim; auto. split; auto. }
      destruct (empty_idx (w_prof v) x) as [[]|]; cbn; auto. destruct (p_lookup (w_prof v) x hash) as [[fn data]|]; cbn; auto.
      destruct hit; [destruct (next_node (ic_cfg c) fn)|destruct (next_node_default (ic_cfg c) fn)]; cbn; auto. }
    pose proof (usim_step (ic_kd c) (ic_nb c) _ _ (MLookup ts len key) U ltac:(auto)) as Q. cbn [mu_step] in Q.
    destruct (mu_lookup (ic_kd c) (ic_nb c) (it_unit t) ts len key) as [[u x]|],
      (mu_lookup (ic_kd c) (ic_nb c) (it_unit t') ts len key) as [[u' y]|]; try contradiction; cbn [rsim]; auto.
    destruct Q as [Q <-]. destruct x as [| | | |h [y|]| | | | | |]; cbn [rsim]; auto.
    + exact (FIN u u' _ y Q).
    + pose proof D as D'. destruct (it_def t) as [y|], (it_def t') as [z|]; try discriminate.
      * injection D' as <-. exact (FIN u u' None y Q).
      * cbn. split; auto. apply wset_sim; auto. split; auto.
  - apply OT. intros c t t' (U & D). cbn. split; auto. unfold i_clear. apply wset_sim; auto. split; [|cbn; rewrite D; auto].
    apply (usim_step KExact 0 _ _ MReset U). auto.
Qed.

Lemma wsim_run np cs : forall ops w v, wsim w v -> Forall (fun o => ~ is_padd o) ops ->
  snd (w_run np cs w ops) = snd (w_run np cs v ops) /\ wsim (fst (w_run np cs w ops)) (fst (w_run np cs v ops)).
Proof.
  induction ops as [|o ops IH]; intros u v H F; cbn [w_run]; [split; auto|].
  inversion F as [|? ? Fo Fs]; subst. pose proof (wsim_step np cs _ _ _ H Fo) as Q.
  destruct (w_step np cs u o) as [[u1 x]|], (w_step np cs v o) as [[v1 y]|]; try contradiction; cbn; auto.
  destruct Q as [Q <-]. pose proof (IH _ _ Q Fs) as P.
  destruct (w_run np cs u1 ops) as [u2 xs], (w_run np cs v1 ops) as [v2 ys]. cbn in *. destruct P as [-> P]. auto.
Qed.
