(** Proofs for C73: fields, lengths, and when the switch stops. *)
From Coq Require Import List Arith NArith ZArith Bool Lia.
From Verif Require Import Base DataModel PhvModel RegModel StfModel StfSpec StfProofs.
Import ListNotations.

Section P.
Variable M : Type.
Variable exec : M -> N -> N -> M * Z.
Notation arrays := (arrays M).
Notation prim_step := (prim_step M exec).
Notation run_prims := (run_prims M exec).
Notation run_pkts := (run_pkts M exec).

Lemma step_pkt dbg e A k p A1 k1 r : prim_step dbg e A k p = Some (A1, k1, r) ->
  let ev := mk_ev (e_now e) (k_len k) p r in
  k_len k1 = k_len k /\ k_data k1 = k_data k /\ length (k_fields k1) = length (k_fields k) /\
  (forall j, nth_error (k_fields k1) j = option_map (fun f => (fst f, field_after (fst f) j (snd f) [ev])) (nth_error (k_fields k) j)) /\
  k_trunc k1 = match p with PTrunc _ v => Z.min (v mod 2 ^ 64) (k_trunc k) | _ => k_trunc k end.
Proof.
  intros H ev. assert (Hid : forall o : option (nat * Z), o = option_map (fun f => (fst f, snd f)) o) by (intros [[? ?]|]; reflexivity).
  unfold StfModel.prim_step in H.
  destruct p; unfold ev; cbn [field_after ev_prim ev_res dest].
  - repeat bsplit H. destruct x0; repeat bsplit H; inversion H; subst; [|repeat split; auto].
    apply put_field_some in H3. destruct H3 as (? & ? & ? & ? & E). repeat split; auto.
  - repeat bsplit H. destruct x0; repeat bsplit H; inversion H; subst; repeat split; auto.
  - repeat bsplit H. destruct x0; repeat bsplit H; inversion H; subst; [|repeat split; auto].
    apply put_field_some in H3. destruct H3 as (? & ? & ? & ? & E). repeat split; auto.
  - repeat bsplit H. destruct x0; repeat bsplit H; inversion H; subst; repeat split; auto.
  - repeat bsplit H. apply get_u64_some in H0. destruct H0 as [_ ->]. inversion H; subst; repeat split; auto.
  - repeat bsplit H. destruct (x >? x0)%Z; repeat bsplit H; inversion H; subst; [repeat split; auto|].
    apply put_field_some in H2. destruct H2 as (? & ? & ? & ? & E). repeat split; auto.
  - repeat bsplit H. inversion H; subst.
    apply put_field_some in H2. destruct H2 as (? & ? & ? & ? & E). repeat split; auto.
  - repeat bsplit H. inversion H; subst.
    apply put_field_some in H0. destruct H0 as (? & ? & ? & ? & E). repeat split; auto.
Qed.

Lemma field_after_app w d v t1 t2 : field_after w d v (t1 ++ t2) = field_after w d (field_after w d v t1) t2.
Proof. revert v; induction t1; intros; cbn [app field_after]; auto. Qed.
(** [k] is what the events [done] made of the packet [k0] *)
Definition follows (k0 : pkt) (done : list event) (k : pkt) : Prop :=
  k_len k = k_len k0 /\ k_data k = k_data k0 /\ length (k_fields k) = length (k_fields k0) /\
  (forall j, nth_error (k_fields k) j = option_map (fun f => (fst f, field_after (fst f) j (snd f) done)) (nth_error (k_fields k0) j)) /\
  ((forall e v, In e done -> ev_prim e = PTrunc Z v -> 0 <= v < 2 ^ 64)%Z -> k_trunc k = shortest (k_trunc k0) done).
Lemma shortest_app n t1 t2 : shortest n (t1 ++ t2) = shortest (shortest n t1) t2.
Proof. revert n; induction t1; intros; cbn [app shortest]; auto. Qed.
Lemma follows_step k0 don k dbg e A p A1 k1 r : follows k0 don k -> prim_step dbg e A k p = Some (A1, k1, r) ->
  follows k0 (don ++ [mk_ev (e_now e) (k_len k) p r]) k1.
Proof.
  intros (a & b & c & d & f) H. destruct (step_pkt _ _ _ _ _ _ _ _ H) as (a' & b' & c' & d' & f').
  split; [congruence|]. split; [congruence|]. split; [congruence|]. split.
  - intros j. rewrite d', d. destruct (nth_error (k_fields k0) j) as [[w u]|]; [|reflexivity]. cbn [option_map fst snd]. rewrite field_after_app. reflexivity.
  - intros HT. rewrite f', shortest_app, f by (intros; eapply HT; eauto; apply in_or_app; auto). cbn [shortest ev_prim]. destruct p; auto.
    assert (0 <= v < 2 ^ 64)%Z by (eapply HT; [apply in_or_app; right; left; reflexivity|reflexivity]).
    rewrite Z.mod_small by assumption. apply Z.min_comm.
Qed.
Lemma val_operand k0 don k s v : follows k0 don k -> val k s = Some v -> operand k0 don s v.
Proof.
  intros (_ & _ & _ & d & _) H. destruct s; cbn in *. { congruence. }
  bsplit H. inversion H; subst. rewrite d in H0. destruct (nth_error (k_fields k0) i) as [f|]; [|discriminate]. cbn in H0. inversion H0; subst.
  exists f. auto.
Qed.
Lemma eval_says k0 don k p q : follows k0 don k -> eval k p = Some q -> says k0 don p q.
Proof.
  intros F H. destruct p; cbn [eval] in H; repeat bsplit H; inversion H; subst; cbn [says]; repeat split; eauto using val_operand.
Qed.
Lemma run_prims_follows dbg l : forall A k A' k' tr k0 don, follows k0 don k -> run_prims dbg A k l = Some (A', k', tr) ->
  follows k0 (don ++ tr) k' /\ length tr = length l /\
  (forall n p e, nth_error l n = Some (p, e) -> exists ev, nth_error tr n = Some ev /\ says k0 (don ++ firstn n tr) p (ev_prim ev) /\
     ev_now ev = e_now e /\ ev_len ev = k_len k0).
Proof.
  induction l as [|[p e] l IH]; cbn [StfModel.run_prims]; intros A k A' k' tr k0 don F H.
  - inversion H; subst. rewrite app_nil_r. repeat split; try apply F. intros [|n] ? ? [=].
  - bsplit H. bsplit H. bsplit H. destruct x0 as [[A1 k1] r], x1 as [[A2 k2] t]. cbn [fst snd] in *. inversion H; subst; clear H.
    pose proof (follows_step _ _ _ _ _ _ _ _ _ _ F H1) as F1. destruct (IH _ _ _ _ _ _ _ F1 H2) as (G1 & G2 & G3).
    rewrite <- app_assoc in G1. cbn in G1. split; [exact G1|]. split; [cbn; congruence|].
    intros [|n] p' e' E; cbn in E.
    + inversion E; subst. eexists. split; [reflexivity|]. cbn. rewrite app_nil_r. split; [eapply eval_says; eauto|]. split; auto. apply F.
    + destruct (G3 _ _ _ E) as (ev & Q1 & Q2 & Q3). exists ev. cbn. rewrite <- app_assoc in Q2. auto.
Qed.
Lemma follows_refl k : follows k [] k.
Proof. repeat split; auto. intros j. destruct (nth_error (k_fields k) j) as [[? ?]|]; reflexivity. Qed.
Lemma run_pkts_nth dbg l : forall A A' r n k ps, run_pkts dbg A l = Some (A', r) -> nth_error l n = Some (k, ps) ->
  exists B B' k' tr, nth_error r n = Some (k', tr) /\ run_prims dbg B k ps = Some (B', k', tr).
Proof.
  induction l as [|[k0 ps0] l IH]; intros A A' r n k ps H E. { destruct n; discriminate. }
  cbn [StfModel.run_pkts] in H. bsplit H. bsplit H. destruct x as [[A1 k1] t], x0 as [A2 r2]. cbn [fst snd] in *. inversion H; subst; clear H.
  destruct n as [|n]; cbn in *.
  - inversion E; subst. eauto 8.
  - eapply IH; eauto.
Qed.
Lemma run_pkts_length dbg l : forall A A' r, run_pkts dbg A l = Some (A', r) -> length r = length l.
Proof.
  induction l as [|[k0 ps0] l IH]; intros A A' r H; cbn [StfModel.run_pkts] in H. { inversion H; auto. }
  bsplit H. bsplit H. destruct x0. inversion H; subst. cbn. f_equal. eauto.
Qed.

(** ** When the switch stops *)
Definition same_shape (A B : arrays) : Prop :=
  map (@length _) (ar_met M B) = map (@length _) (ar_met M A) /\ map (@length _) (ar_cnt M B) = map (@length _) (ar_cnt M A) /\
  map (fun r => length (ra_v r)) (ar_reg M B) = map (fun r => length (ra_v r)) (ar_reg M A).
Lemma list_set_map_id {X Y} (f : X -> Y) l i x y : nth_error l i = Some y -> f x = f y -> map f (list_set l i x) = map f l.
Proof. revert i; induction l as [|z l IH]; intros [|i] H E; cbn in *; auto. - inversion H; subst. congruence. - erewrite IH; eauto. Qed.
Lemma step_shape dbg e A k p A1 k1 r : prim_step dbg e A k p = Some (A1, k1, r) -> same_shape A A1.
Proof.
  intros H. unfold StfModel.prim_step in H. destruct p.
  - repeat bsplit H. destruct x0; repeat bsplit H; inversion H; subst; [|repeat split; auto]. repeat split; auto. cbn [ar_met].
    eapply list_set_map_id; eauto. apply list_set_length.
  - repeat bsplit H. destruct x0; repeat bsplit H; inversion H; subst; [|repeat split; auto]. repeat split; auto. cbn [ar_cnt].
    eapply list_set_map_id; eauto. apply list_set_length.
  - repeat bsplit H. destruct x0; repeat bsplit H; inversion H; subst; repeat split; auto.
  - repeat bsplit H. destruct x0; repeat bsplit H; inversion H; subst; [|repeat split; auto]. repeat split; auto. cbn [ar_reg].
    eapply list_set_map_id; eauto. cbn. apply list_set_length.
  - repeat bsplit H. inversion H; subst; repeat split; auto.
  - repeat bsplit H. destruct (x >? x0)%Z; repeat bsplit H; inversion H; subst; repeat split; auto.
  - repeat bsplit H. inversion H; subst; repeat split; auto.
  - repeat bsplit H. inversion H; subst; repeat split; auto.
Qed.
Lemma map_nth_error_len {X} (f : X -> nat) (l l' : list X) i x : map f l' = map f l -> nth_error l i = Some x -> exists y, nth_error l' i = Some y /\ f y = f x.
Proof.
  revert l' i; induction l as [|z l IH]; intros [|z' l'] i E H; try discriminate; destruct i; cbn in *; try discriminate.
  - inversion H; subst. inversion E. eauto.
  - inversion E. eauto.
Qed.
Lemma shape_range A B e : same_shape A B -> in_range A e -> in_range B e.
Proof.
  intros (a & b & c) H. unfold in_range in *. destruct (ev_prim e); auto; destruct H as (r & H1 & H2).
  - destruct (map_nth_error_len _ _ _ _ _ a H1) as (y & ? & E). exists y. rewrite E. auto.
  - destruct (map_nth_error_len _ _ _ _ _ b H1) as (y & ? & E). exists y. rewrite E. auto.
  - destruct (map_nth_error_len _ _ _ _ _ c H1) as (y & ? & E). exists y. rewrite E. auto.
  - destruct (map_nth_error_len _ _ _ _ _ c H1) as (y & ? & E). exists y. rewrite E. auto.
Qed.
Lemma shape_trans A B C : same_shape A B -> same_shape B C -> same_shape A C.
Proof. intros (?&?&?) (?&?&?). repeat split; congruence. Qed.
Lemma run_prims_shape dbg l : forall A k A' k' tr, run_prims dbg A k l = Some (A', k', tr) -> same_shape A A'.
Proof.
  induction l as [|[p e] l IH]; cbn [StfModel.run_prims]; intros A k A' k' tr H.
  - inversion H; subst. repeat split; auto.
  - repeat bsplit H. destruct x0 as [[A1 k1] r], x1 as [[A2 k2] t]. inversion H; subst. eapply shape_trans; [eapply step_shape|eapply IH]; eauto.
Qed.

(** The release build does what the debug build does, or stops *)
Lemma checked_release i n r : checked false i n = Some r -> checked true i n = Some r.
Proof. unfold checked. intros H. bsplit H. rewrite H0. cbn [bind]. destruct (x <? Z.of_nat n)%Z; auto. discriminate. Qed.
Lemma step_release e A k p q : prim_step false e A k p = Some q -> prim_step true e A k p = Some q.
Proof.
  unfold StfModel.prim_step. destruct p; intros H; auto; bsplit H; bsplit H; rewrite H0; cbn [bind]; rewrite (checked_release _ _ _ H1); exact H.
Qed.
Lemma run_prims_release l : forall A k r, run_prims false A k l = Some r -> run_prims true A k l = Some r.
Proof.
  induction l as [|[p e] l IH]; cbn [StfModel.run_prims]; intros A k r H; auto.
  bsplit H. bsplit H. bsplit H. rewrite H0. cbn [bind]. rewrite (step_release _ _ _ _ _ H1). cbn [bind]. rewrite (IH _ _ _ H2). exact H.
Qed.
Lemma run_pkts_release l : forall A r, run_pkts false A l = Some r -> run_pkts true A l = Some r.
Proof.
  induction l as [|[k ps] l IH]; cbn [StfModel.run_pkts]; intros A r H; auto.
  bsplit H. bsplit H. rewrite (run_prims_release _ _ _ _ H0). cbn [bind]. rewrite (IH _ _ H1). exact H.
Qed.
Lemma checked_debug i n r : (0 <= i < Z.of_nat n)%Z -> checked true i n = Some r -> checked false i n = Some r.
Proof.
  intros Hi. unfold checked. intros H. bsplit H. rewrite H0. cbn [bind]. apply get_uint_some in H0. destruct H0 as [_ ->].
  assert (i mod 2 ^ 32 <= i)%Z by (apply Z.mod_le; lia). destruct (Z.ltb_spec (i mod 2 ^ 32) (Z.of_nat n)); [auto|lia].
Qed.
Lemma step_debug e A k p A1 k1 r : in_range A (mk_ev (e_now e) (k_len k) p r) -> prim_step true e A k p = Some (A1, k1, r) -> prim_step false e A k p = Some (A1, k1, r).
Proof.
  unfold StfModel.prim_step, in_range; cbn [ev_prim]. destruct p; intros R H; auto; destruct R as (x' & R1 & R2); bsplit H; bsplit H; rewrite H0 in *; cbn [bind];
    inversion R1; subst; rewrite (checked_debug _ _ _ R2 H1); exact H.
Qed.
Lemma run_prims_debug l : forall A k A' k' tr, Forall (in_range A) tr -> run_prims true A k l = Some (A', k', tr) -> run_prims false A k l = Some (A', k', tr).
Proof.
  induction l as [|[p e] l IH]; cbn [StfModel.run_prims]; intros A k A' k' tr R H; auto.
  bsplit H. bsplit H. bsplit H. rewrite H0. cbn [bind]. destruct x0 as [[A1 k1] r], x1 as [[A2 k2] t]. cbn [fst snd] in *. inversion H; subst; clear H.
  inversion R; subst. rewrite (step_debug _ _ _ _ _ _ _ H4 H1). cbn [bind fst snd]. erewrite IH; [reflexivity| |exact H2].
  eapply Forall_impl; [|eassumption]. intros ev. apply shape_range. eapply step_shape; eauto.
Qed.
Lemma run_pkts_debug l : forall A A' r, Forall (in_range A) (trace r) -> run_pkts true A l = Some (A', r) -> run_pkts false A l = Some (A', r).
Proof.
  induction l as [|[k ps] l IH]; cbn [StfModel.run_pkts]; intros A A' r R H; auto.
  bsplit H. bsplit H. destruct x as [[A1 k1] t], x0 as [A2 r2]. cbn [fst snd] in *. inversion H; subst; clear H. unfold trace in R. cbn in R.
  apply Forall_app in R. destruct R as [R1 R2]. rewrite (run_prims_debug _ _ _ _ _ _ R1 H0). cbn [bind fst snd]. erewrite IH; [reflexivity| |exact H1].
  eapply Forall_impl; [|eassumption]. intros ev. apply shape_range. eapply run_prims_shape; eauto.
Qed.

(** The debug build does not stop *)
Definition fields_ok (k : pkt) : Prop := Forall (fun f => 0 <= snd f)%Z (k_fields k).
Lemma val_ok k s : fields_ok k -> src_ok k s -> exists v, val k s = Some v /\ (0 <= v)%Z.
Proof.
  intros F H. destruct s; cbn in *. { eauto. }
  destruct (nth_error (k_fields k) i) as [f|] eqn:E; [|apply nth_error_None in E; lia]. cbn. eexists; split; [reflexivity|].
  unfold fields_ok in F. rewrite Forall_forall in F. apply F. eapply nth_error_In; eauto.
Qed.
Lemma put_ok k d v : fields_ok k -> d < length (k_fields k) -> exists k', put_field k d v = Some k' /\ fields_ok k'.
Proof.
  intros F H. unfold put_field. destruct (nth_error (k_fields k) d) as [f|] eqn:E; [|apply nth_error_None in E; lia]. cbn [bind].
  eexists; split; [reflexivity|]. unfold fields_ok. cbn [k_fields]. apply Forall_forall. intros g Hg. apply In_nth_error in Hg. destruct Hg as [j Hj].
  rewrite (nth_error_set _ _ _ _ _ E) in Hj. destruct (d =? j).
  - inversion Hj; subst. cbn [snd]. rewrite land_mask. apply Z.mod_pos_bound. apply Z.pow_pos_nonneg; lia.
  - unfold fields_ok in F. rewrite Forall_forall in F. apply F. eapply nth_error_In; eauto.
Qed.
Lemma checked_ok i n : (0 <= i)%Z -> exists r, checked true i n = Some r.
Proof. intros H. unfold checked, get_uint. destruct (Z.ltb_spec i 0); [lia|]. cbn [bind]. destruct (_ <? _)%Z; eauto. Qed.
Lemma u64_ok v : (0 <= v)%Z -> exists u, get_u64 v = Some u.
Proof. intros H. unfold get_u64. destruct (Z.ltb_spec v 0); [lia|]. eauto. Qed.
Lemma nth_ok {X} (l : list X) i : i < length l -> exists x, nth_error l i = Some x.
Proof. intros H. destruct (nth_error l i) eqn:E; eauto. apply nth_error_None in E. lia. Qed.
Ltac getv F H := let v := fresh "v" in let E := fresh "E" in let P := fresh "P" in destruct (val_ok _ _ F H) as (v & E & P); rewrite E; cbn [bind].
Ltac start := match goal with |- exists q A1 k1 r, Some ?p = Some q /\ _ => exists p end; unfold StfModel.prim_step; cbn beta iota.
Lemma step_ok e A k p : fields_ok k -> prim_ok A k p ->
  exists q A1 k1 r, eval k p = Some q /\ prim_step true e A k q = Some (A1, k1, r) /\ fields_ok k1.
Proof.
  intros F H. destruct p; cbn [prim_ok eval] in *.
  - destruct H as (H1 & H2 & H3). getv F H2. start. destruct (nth_ok _ _ H1) as [ms Em]. rewrite Em. cbn [bind].
    destruct (checked_ok v (length ms) P) as [r Er]. rewrite Er. cbn [bind]. destruct r as [j|]; [|do 3 eexists; split; [|split]; eauto].
    destruct (nth_ok _ _ (checked_lt _ _ _ _ Er)) as [m Ej]. rewrite Ej. cbn [bind]. cbv zeta.
    destruct (put_ok k d (snd (exec m (k_len k) (e_now e))) F H3) as (k' & Ek & Fk). rewrite Ek. cbn [bind]. do 3 eexists; split; [|split]; eauto.
  - destruct H as (H1 & H2). getv F H2. start. destruct (nth_ok _ _ H1) as [ms Em]. rewrite Em. cbn [bind].
    destruct (checked_ok v (length ms) P) as [r Er]. rewrite Er. cbn [bind]. destruct r as [j|]; [|do 3 eexists; split; [|split]; eauto].
    destruct (nth_ok _ _ (checked_lt _ _ _ _ Er)) as [m Ej]. rewrite Ej. cbn [bind]. do 3 eexists; split; [|split]; eauto.
  - destruct H as (H3 & H1 & H2). getv F H2. start. destruct (nth_ok _ _ H1) as [ms Em]. rewrite Em. cbn [bind].
    destruct (checked_ok v (length (ra_v ms)) P) as [r Er]. rewrite Er. cbn [bind]. destruct r as [j|]; [|do 3 eexists; split; [|split]; eauto].
    destruct (nth_ok _ _ (checked_lt _ _ _ _ Er)) as [m Ej]. rewrite Ej. cbn [bind].
    destruct (put_ok k d m F H3) as (k' & Ek & Fk). rewrite Ek. cbn [bind]. do 3 eexists; split; [|split]; eauto.
  - destruct H as (H1 & H2 & H3). getv F H2. getv F H3. start. destruct (nth_ok _ _ H1) as [ms Em]. rewrite Em. cbn [bind].
    destruct (checked_ok v0 (length (ra_v ms)) P) as [r Er]. rewrite Er. cbn [bind]. destruct r as [j|]; do 3 eexists; split; eauto.
  - getv F H. start. destruct (u64_ok v0 P) as [u Eu]. rewrite Eu. cbn [bind]. do 3 eexists; split; eauto.
  - destruct H as (H1 & H2 & H3). getv F H2. getv F H3. start. destruct (u64_ok v P) as [u Eu]. rewrite Eu. cbn [bind].
    destruct (u64_ok v0 P0) as [u0 Eu0]. rewrite Eu0. cbn [bind]. destruct (u >? u0)%Z. { do 3 eexists; split; eauto. } cbv zeta.
    destruct (put_ok k d (draw u u0 (e_draw e)) F H1) as (k' & Ek & Fk). rewrite Ek. cbn [bind]. do 3 eexists; split; eauto.
  - destruct H as (H1 & H2 & H3). getv F H2. getv F H3. start. destruct (u64_ok v P) as [u Eu]. rewrite Eu. cbn [bind].
    destruct (u64_ok v0 P0) as [u0 Eu0]. rewrite Eu0. cbn [bind]. cbv zeta.
    destruct (put_ok k d ((e_hash e mod (if (u0 =? 0)%Z then 1%Z else u0) + u) mod two64)%Z F H1) as (k' & Ek & Fk). rewrite Ek. cbn [bind]. do 3 eexists; split; eauto.
  - destruct H as (H1 & H2). getv F H2. start. destruct (put_ok k d v0 F H1) as (k' & Ek & Fk). rewrite Ek. cbn [bind].
    do 3 eexists; split; eauto.
Qed.
Lemma shape_len A B : same_shape A B -> length (ar_met M B) = length (ar_met M A) /\ length (ar_cnt M B) = length (ar_cnt M A) /\ length (ar_reg M B) = length (ar_reg M A).
Proof.
  intros (a & b & c). apply (f_equal (@length _)) in a, b, c. rewrite !map_length in a, b, c. auto.
Qed.
Lemma prim_ok_shape A B k k1 p : same_shape A B -> length (k_fields k1) = length (k_fields k) -> prim_ok A k p -> prim_ok B k1 p.
Proof.
  intros S L. apply shape_len in S. destruct S as (a & b & c).
  assert (HS : forall s, src_ok k s -> src_ok k1 s) by (intros [|]; cbn; auto; rewrite L; auto).
  destruct p; cbn [prim_ok]; rewrite ?a, ?b, ?c, ?L; intuition.
Qed.
Lemma run_prims_ok l : forall A k, fields_ok k -> Forall (fun y => prim_ok A k (fst y)) l -> exists r, run_prims true A k l = Some r.
Proof.
  induction l as [|[p e] l IH]; intros A k F H; cbn [StfModel.run_prims]; eauto. inversion H; subst. cbn [fst] in *.
  destruct (step_ok e A k p F H2) as (q & A1 & k1 & r & E1 & E2 & F1). rewrite E1. cbn [bind]. rewrite E2. cbn [bind fst snd].
  destruct (IH A1 k1 F1) as [t Et].
  - eapply Forall_impl; [|exact H3]. intros y. apply prim_ok_shape. { eapply step_shape; eauto. } apply (step_pkt _ _ _ _ _ _ _ _ E2).
  - rewrite Et. cbn [bind]. eauto.
Qed.
Lemma run_pkts_ok l : forall A, program_ok A l -> exists r, run_pkts true A l = Some r.
Proof.
  induction l as [|[k ps] l IH]; intros A H; cbn [StfModel.run_pkts]; eauto. inversion H; subst. cbn [fst snd] in *. destruct H2 as [F H2].
  destruct (run_prims_ok ps A k F H2) as [[[A1 k1] t] E]. rewrite E. cbn [bind fst snd].
  destruct (IH A1) as [r Er]. 
  - eapply Forall_impl; [|exact H3]. intros y [? G]. split; auto. eapply Forall_impl; [|exact G]. intros z. apply prim_ok_shape; auto. eapply run_prims_shape; eauto.
  - rewrite Er. cbn [bind]. eauto.
Qed.
End P.
