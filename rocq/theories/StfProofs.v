(** Proofs for C73. *)
From Coq Require Import List Arith NArith ZArith Bool Lia.
From Verif Require Import Base DataModel PhvModel RegModel StfModel StfSpec.
Import ListNotations.

Lemma bind_some {A B} (x : option A) (f : A -> option B) b : bind x f = Some b -> exists a, x = Some a /\ f a = Some b.
Proof. destruct x; cbn; [eauto|discriminate]. Qed.
Ltac bsplit H := apply bind_some in H; destruct H as [? [? H]].

Lemma nth_error_set {A} (l : list A) i j x y : nth_error l i = Some y -> nth_error (list_set l i x) j = if i =? j then Some x else nth_error l j.
Proof.
  intros H. destruct (Nat.eqb_spec i j).
  - subst. apply nth_error_list_set_eq. apply nth_error_Some. congruence.
  - apply nth_error_list_set_neq. assumption.
Qed.
Lemma map_list_set {A B} (f : A -> B) (l : list A) i x : map f (list_set l i x) = list_set (map f l) i (f x).
Proof. revert i; induction l as [|y l IH]; intros [|i]; cbn; auto. rewrite IH; auto. Qed.
Lemma at2_set {X} (l : list (list X)) a b i j r x y : nth_error l b = Some r -> nth_error r j = Some y ->
  at2 (list_set l b (list_set r j x)) a i = if (b =? a) && (j =? i) then Some x else at2 l a i.
Proof.
  intros H1 H2. unfold at2. rewrite (nth_error_set _ _ _ _ _ H1). destruct (Nat.eqb_spec b a); cbn; auto. subst. rewrite H1.
  rewrite (nth_error_set _ _ _ _ _ H2). reflexivity.
Qed.

Lemma land_mask v w : Z.land v (Z.shiftl 1 (Z.of_nat w) - 1) = (v mod 2 ^ Z.of_nat w)%Z.
Proof. rewrite Z.shiftl_1_l. change (2 ^ Z.of_nat w - 1)%Z with (Z.pred (2 ^ Z.of_nat w)). rewrite <- Z.ones_equiv. apply Z.land_ones. lia. Qed.

Lemma get_uint_some v u : get_uint v = Some u -> (0 <= v /\ u = v mod 2 ^ 32)%Z.
Proof. unfold get_uint. change two32 with (2 ^ 32)%Z. destruct (Z.ltb_spec v 0); [discriminate|]. intros [= <-]; auto. Qed.
Lemma get_u64_some v u : get_u64 v = Some u -> (0 <= v /\ u = v mod 2 ^ 64)%Z.
Proof. unfold get_u64. change two64 with (2 ^ 64)%Z. destruct (Z.ltb_spec v 0); [discriminate|]. intros [= <-]; auto. Qed.
Lemma checked_some dbg i n r : (0 <= i < 2 ^ 32)%Z -> checked dbg i n = Some r ->
  match r with Some j => i = Z.of_nat j /\ j < n | None => (Z.of_nat n <= i)%Z end.
Proof.
  intros Hi. unfold checked. intros H. bsplit H. apply get_uint_some in H0. destruct H0 as [_ ->]. rewrite Z.mod_small in H by exact Hi.
  destruct (Z.ltb_spec i (Z.of_nat n)).
  - inversion H; subst. split; lia.
  - destruct dbg; inversion H; subst. lia.
Qed.
Lemma checked_lt dbg i n j : checked dbg i n = Some (Some j) -> j < n.
Proof.
  unfold checked. intros H. bsplit H. apply get_uint_some in H0. destruct H0 as [_ ->].
  destruct (Z.ltb_spec (i mod 2 ^ 32) (Z.of_nat n)).
  - inversion H; subst. pose proof (Z.mod_pos_bound i (2 ^ 32) eq_refl). lia.
  - destruct dbg; inversion H.
Qed.

Section P.
Variable M : Type.
Variable exec : M -> N -> N -> M * Z.
Notation arrays := (arrays M).
Notation prim_step := (prim_step M exec).
Notation run_prims := (run_prims M exec).
Notation run_pkts := (run_pkts M exec).

Lemma put_field_some k d v k' : put_field k d v = Some k' ->
  k_len k' = k_len k /\ k_data k' = k_data k /\ k_trunc k' = k_trunc k /\ length (k_fields k') = length (k_fields k) /\
  (forall j, nth_error (k_fields k') j = option_map (fun f => (fst f, if d =? j then (v mod 2 ^ Z.of_nat (fst f))%Z else snd f)) (nth_error (k_fields k) j)).
Proof.
  unfold put_field. intros H. bsplit H. inversion H; subst; clear H. cbn. repeat split; auto using list_set_length.
  intros j. rewrite (nth_error_set _ _ _ _ _ H0). rewrite land_mask. destruct (Nat.eqb_spec d j).
  - subst. rewrite H0. cbn. reflexivity.
  - destruct (nth_error (k_fields k) j) as [[w u]|]; reflexivity.
Qed.

(** Steps of arrays *)
Inductive steps (dbg : bool) : arrays -> list event -> arrays -> Prop :=
| steps_nil A : steps dbg A [] A
| steps_cons e A k p A1 k1 r tr A' : prim_step dbg e A k p = Some (A1, k1, r) -> steps dbg A1 tr A' ->
    steps dbg A (mk_ev (e_now e) (k_len k) p r :: tr) A'.
Lemma steps_app dbg A t1 A1 t2 A2 : steps dbg A t1 A1 -> steps dbg A1 t2 A2 -> steps dbg A (t1 ++ t2) A2.
Proof. induction 1; intros; cbn; auto. econstructor; eauto. Qed.
Lemma steps_split dbg A t1 t2 A2 : steps dbg A (t1 ++ t2) A2 -> exists A1, steps dbg A t1 A1 /\ steps dbg A1 t2 A2.
Proof.
  revert A; induction t1 as [|e t1 IH]; cbn; intros A H. { exists A; split; [constructor|auto]. }
  inversion H; subst. destruct (IH _ H5) as [B [? ?]]. exists B; split; auto. econstructor; eauto.
Qed.
Lemma run_prims_steps dbg l : forall A k A' k' tr, run_prims dbg A k l = Some (A', k', tr) -> steps dbg A tr A'.
Proof.
  induction l as [|[p e] l IH]; cbn [StfModel.run_prims]; intros A k A' k' tr H.
  - inversion H; constructor.
  - bsplit H. bsplit H. bsplit H. inversion H; subst; clear H. destruct x0 as [[A1 k1] r], x1 as [[A2 k2] t]. cbn [fst snd] in *.
    inversion H4; subst. econstructor; eauto.
Qed.
Lemma run_pkts_steps dbg l : forall A A' r, run_pkts dbg A l = Some (A', r) -> steps dbg A (trace r) A'.
Proof.
  induction l as [|[k ps] l IH]; cbn [StfModel.run_pkts]; intros A A' r H.
  - inversion H; constructor.
  - bsplit H. bsplit H. inversion H; subst; clear H. destruct x as [[A1 k1] t]. destruct x0 as [A2 r2]. cbn [fst snd] in *.
    unfold trace. cbn. eapply steps_app; [eapply run_prims_steps; eauto|eapply IH; eauto].
Qed.

Ltac cases_step H :=
  unfold StfModel.prim_step in H; repeat bsplit H;
  repeat match type of H with context [match ?r with Some _ => _ | None => _ end] => destruct r end;
  repeat bsplit H.

(** One step *)
Lemma step_counter dbg e A k p A1 k1 r a i : prim_step dbg e A k p = Some (A1, k1, r) ->
  let ev := mk_ev (e_now e) (k_len k) p r in index32 ev ->
  counter_at A1 a i = option_map (fun c => if count_hit a i ev then ((fst c + k_len k) mod 2 ^ 64, (snd c + 1) mod 2 ^ 64)%N else c) (counter_at A a i).
Proof.
  intros H ev Hi. assert (Hid : forall o : option (N * N), o = option_map (fun c => c) o) by (intros [?|]; reflexivity).
  unfold StfModel.prim_step in H. destruct p; cbn [index32 index_of ev_prim ev] in Hi; unfold count_hit, ev; cbn [ev_prim].
  - repeat bsplit H. destruct x0; repeat bsplit H; inversion H; subst; apply Hid.
  - bsplit H. bsplit H. specialize (Hi _ eq_refl). pose proof (checked_some _ _ _ _ Hi H1) as HC. destruct x0 as [j|].
    + bsplit H. inversion H; subst; clear H. destruct HC as [-> HC]. unfold counter_at. cbn [ar_cnt].
      rewrite (at2_set _ _ _ _ _ _ _ _ H0 H2). unfold is_at.
      destruct (Nat.eqb_spec a0 a); cbn [andb]; [|apply Hid]. subst.
      destruct (Nat.eqb_spec j i).
      * subst. rewrite Z.eqb_refl. unfold at2. rewrite H0, H2. reflexivity.
      * destruct (Z.eqb_spec (Z.of_nat j) (Z.of_nat i)); [lia|apply Hid].
    + inversion H; subst; clear H. unfold is_at. destruct (Nat.eqb_spec a0 a); cbn [andb]; [|apply Hid]. subst.
      destruct (Z.eqb_spec i0 (Z.of_nat i)); [|apply Hid]. unfold counter_at, at2. rewrite H0.
      replace (nth_error x i) with (@None (N * N)); [reflexivity|]. symmetry. apply nth_error_None. lia.
  - repeat bsplit H. destruct x0; repeat bsplit H; inversion H; subst; apply Hid.
  - repeat bsplit H. destruct x0; repeat bsplit H; inversion H; subst; apply Hid.
  - repeat bsplit H. inversion H; subst; apply Hid.
  - repeat bsplit H. destruct (x >? x0)%Z; repeat bsplit H; inversion H; subst; apply Hid.
  - repeat bsplit H. inversion H; subst; apply Hid.
  - repeat bsplit H. inversion H; subst; apply Hid.
Qed.
Lemma step_meter dbg e A k p A1 k1 r a i : prim_step dbg e A k p = Some (A1, k1, r) ->
  let ev := mk_ev (e_now e) (k_len k) p r in index32 ev ->
  meter_at A1 a i = option_map (fun m => if meter_hit a i ev then fst (exec m (k_len k) (e_now e)) else m) (meter_at A a i).
Proof.
  intros H ev Hi. assert (Hid : forall o : option M, o = option_map (fun c => c) o) by (intros [?|]; reflexivity).
  unfold StfModel.prim_step in H. destruct p; cbn [index32 index_of ev_prim ev] in Hi; unfold meter_hit, ev; cbn [ev_prim].
  - bsplit H. bsplit H. specialize (Hi _ eq_refl). pose proof (checked_some _ _ _ _ Hi H1) as HC. destruct x0 as [j|].
    + bsplit H. cbv zeta in H. bsplit H. inversion H; subst; clear H. destruct HC as [-> HC]. unfold meter_at. cbn [ar_met].
      rewrite (at2_set _ _ _ _ _ _ _ _ H0 H2). unfold is_at.
      destruct (Nat.eqb_spec a0 a); cbn [andb]; [|apply Hid]. subst.
      destruct (Nat.eqb_spec j i).
      * subst. rewrite Z.eqb_refl. unfold at2. rewrite H0, H2. reflexivity.
      * destruct (Z.eqb_spec (Z.of_nat j) (Z.of_nat i)); [lia|apply Hid].
    + inversion H; subst; clear H. unfold is_at. destruct (Nat.eqb_spec a0 a); cbn [andb]; [|apply Hid]. subst.
      destruct (Z.eqb_spec i0 (Z.of_nat i)); [|apply Hid]. unfold meter_at, at2. rewrite H0.
      replace (nth_error x i) with (@None M); [reflexivity|]. symmetry. apply nth_error_None. lia.
  - repeat bsplit H. destruct x0; repeat bsplit H; inversion H; subst; apply Hid.
  - repeat bsplit H. destruct x0; repeat bsplit H; inversion H; subst; apply Hid.
  - repeat bsplit H. destruct x0; repeat bsplit H; inversion H; subst; apply Hid.
  - repeat bsplit H. inversion H; subst; apply Hid.
  - repeat bsplit H. destruct (x >? x0)%Z; repeat bsplit H; inversion H; subst; apply Hid.
  - repeat bsplit H. inversion H; subst; apply Hid.
  - repeat bsplit H. inversion H; subst; apply Hid.
Qed.
Lemma nth_map_rav (l : list rarr) a : nth_error (map ra_v l) a = option_map ra_v (nth_error l a).
Proof. revert a; induction l; intros [|?]; cbn; auto. Qed.
Lemma step_width dbg e A k p A1 k1 r a : prim_step dbg e A k p = Some (A1, k1, r) -> reg_width A1 a = reg_width A a.
Proof.
  intros H. unfold StfModel.prim_step in H. destruct p.
  - repeat bsplit H. destruct x0; repeat bsplit H; inversion H; subst; reflexivity.
  - repeat bsplit H. destruct x0; repeat bsplit H; inversion H; subst; reflexivity.
  - repeat bsplit H. destruct x0; repeat bsplit H; inversion H; subst; reflexivity.
  - repeat bsplit H. destruct x0; inversion H; subst; [|reflexivity]. unfold reg_width. cbn [ar_reg].
    rewrite (nth_error_set _ _ _ _ _ H0). destruct (Nat.eqb_spec a0 a); auto. subst. rewrite H0. reflexivity.
  - repeat bsplit H. inversion H; subst; reflexivity.
  - repeat bsplit H. destruct (x >? x0)%Z; repeat bsplit H; inversion H; subst; reflexivity.
  - repeat bsplit H. inversion H; subst; reflexivity.
  - repeat bsplit H. inversion H; subst; reflexivity.
Qed.
Lemma step_reg dbg e A k p A1 k1 r a i w : prim_step dbg e A k p = Some (A1, k1, r) -> reg_width A a = Some w ->
  let ev := mk_ev (e_now e) (k_len k) p r in index32 ev ->
  reg_at A1 a i = option_map (fun v => reg_after w a i v [ev]) (reg_at A a i).
Proof.
  intros H Hw ev Hi. assert (Hid : forall o : option Z, o = option_map (fun c => c) o) by (intros [?|]; reflexivity).
  unfold StfModel.prim_step in H. destruct p; cbn [index32 index_of ev_prim ev] in Hi; unfold ev; cbn [ev_prim reg_after].
  - repeat bsplit H. destruct x0; repeat bsplit H; inversion H; subst; apply Hid.
  - repeat bsplit H. destruct x0; repeat bsplit H; inversion H; subst; apply Hid.
  - repeat bsplit H. destruct x0; repeat bsplit H; inversion H; subst; apply Hid.
  - bsplit H. bsplit H. specialize (Hi _ eq_refl). pose proof (checked_some _ _ _ _ Hi H1) as HC. destruct x0 as [j|].
    + inversion H; subst; clear H. destruct HC as [-> HC]. unfold reg_at. cbn [ar_reg]. rewrite map_list_set. cbn [ra_store ra_v].
      destruct (nth_error (ra_v x) j) as [y|] eqn:Ej; [|apply nth_error_None in Ej; lia].
      assert (Hm : nth_error (map ra_v (ar_reg M A)) a0 = Some (ra_v x)) by (rewrite nth_map_rav, H0; reflexivity).
      rewrite (at2_set _ _ _ _ _ _ _ _ Hm Ej). unfold is_at. rewrite land_mask.
      destruct (Nat.eqb_spec a0 a); cbn [andb]; [|apply Hid]. subst.
      unfold reg_width in Hw. rewrite H0 in Hw. cbn in Hw. inversion Hw; subst.
      destruct (Nat.eqb_spec j i).
      * subst. rewrite Z.eqb_refl. unfold at2. rewrite Hm, Ej. reflexivity.
      * destruct (Z.eqb_spec (Z.of_nat j) (Z.of_nat i)); [lia|apply Hid].
    + inversion H; subst; clear H. unfold is_at. destruct (Nat.eqb_spec a0 a); cbn [andb]; [|apply Hid]. subst.
      destruct (Z.eqb_spec i0 (Z.of_nat i)); [|apply Hid]. unfold reg_at, at2. rewrite nth_map_rav, H0. cbn [option_map].
      replace (nth_error (ra_v x) i) with (@None Z); [reflexivity|]. symmetry. apply nth_error_None. lia.
  - repeat bsplit H. inversion H; subst; apply Hid.
  - repeat bsplit H. destruct (x >? x0)%Z; repeat bsplit H; inversion H; subst; apply Hid.
  - repeat bsplit H. inversion H; subst; apply Hid.
  - repeat bsplit H. inversion H; subst; apply Hid.
Qed.

(** Histories *)
Lemma steps_counter dbg A tr A' a i : steps dbg A tr A' -> Forall index32 tr ->
  (forall c, counter_at A a i = Some c -> (fst c < 2 ^ 64 /\ snd c < 2 ^ 64)%N) ->
  counter_at A' a i = option_map (fun c => ((fst c + bytes_counted a i tr) mod 2 ^ 64, (snd c + packets_counted a i tr) mod 2 ^ 64)%N) (counter_at A a i).
Proof.
  induction 1 as [A|e A k p A1 k1 r tr A' Hs Ht IH]; intros HF HB.
  - destruct (counter_at A a i) as [c|]; [|reflexivity]. destruct (HB _ eq_refl). cbn [option_map bytes_counted].
    unfold packets_counted. cbn. rewrite !N.add_0_r, !N.mod_small by auto. destruct c; reflexivity.
  - inversion HF; subst. pose proof (step_counter _ _ _ _ _ _ _ _ a i Hs H1) as E. rewrite IH; auto.
    + rewrite E. destruct (counter_at A a i) as [[b c]|] eqn:EC; [|reflexivity]. cbn [option_map bytes_counted]. unfold packets_counted. cbn [filter].
      destruct (count_hit a i _) eqn:EH; cbn [fst snd ev_len length]; f_equal; f_equal.
      * rewrite N.add_mod_idemp_l by discriminate. f_equal. lia.
      * rewrite N.add_mod_idemp_l by discriminate. f_equal. lia.
    + rewrite E. intros c. destruct (counter_at A a i) as [[b d]|] eqn:EC; [|discriminate]. cbn [option_map fst snd].
      destruct (HB _ eq_refl). destruct (count_hit a i _); intros [= <-]; cbn [fst snd] in *; auto.
      split; apply N.mod_lt; discriminate.
Qed.
Lemma steps_meter dbg A tr A' a i : steps dbg A tr A' -> Forall index32 tr ->
  meter_at A' a i = option_map (fun m => meter_after exec a i m tr) (meter_at A a i).
Proof.
  induction 1 as [A|e A k p A1 k1 r tr A' Hs Ht IH]; intros HF.
  - destruct (meter_at A a i); reflexivity.
  - inversion HF; subst. pose proof (step_meter _ _ _ _ _ _ _ _ a i Hs H1) as E. rewrite IH by auto. rewrite E.
    destruct (meter_at A a i) as [m|]; [|reflexivity]. cbn [option_map]. unfold meter_after. cbn [filter].
    destruct (meter_hit a i _) eqn:EH; reflexivity.
Qed.
Lemma steps_width dbg A tr A' a : steps dbg A tr A' -> reg_width A' a = reg_width A a.
Proof. induction 1; auto. rewrite IHsteps. eapply step_width; eauto. Qed.
Lemma steps_reg dbg A tr A' a i w : steps dbg A tr A' -> Forall index32 tr -> reg_width A a = Some w ->
  reg_at A' a i = option_map (fun v => reg_after w a i v tr) (reg_at A a i).
Proof.
  induction 1 as [A|e A k p A1 k1 r tr A' Hs Ht IH]; intros HF Hw.
  - destruct (reg_at A a i); reflexivity.
  - inversion HF; subst. pose proof (step_reg _ _ _ _ _ _ _ _ a i w Hs Hw H1) as E. rewrite IH; auto.
    + rewrite E. destruct (reg_at A a i); reflexivity.
    + rewrite (step_width _ _ _ _ _ _ _ _ a Hs). auto.
Qed.

(** The value given to the destination *)
Lemma step_color dbg e A k a i d A1 k1 r : prim_step dbg e A k (PMeter Z a i d) = Some (A1, k1, r) -> (0 <= i < 2 ^ 32)%Z ->
  r = option_map (fun m => snd (exec m (k_len k) (e_now e))) (meter_at A a (Z.to_nat i)).
Proof.
  intros H Hi. unfold StfModel.prim_step in H. bsplit H. bsplit H. pose proof (checked_some _ _ _ _ Hi H1) as HC. unfold meter_at, at2. rewrite H0.
  destruct x0 as [j|].
  - bsplit H. cbv zeta in H. bsplit H. destruct HC as [-> _]. rewrite Nat2Z.id, H2. inversion H; subst. reflexivity.
  - inversion H; subst. replace (nth_error x (Z.to_nat i)) with (@None M); [reflexivity|]. symmetry. apply nth_error_None. lia.
Qed.
Lemma step_read dbg e A k a i d A1 k1 r : prim_step dbg e A k (PRead Z d a i) = Some (A1, k1, r) -> (0 <= i < 2 ^ 32)%Z ->
  r = reg_at A a (Z.to_nat i).
Proof.
  intros H Hi. unfold StfModel.prim_step in H. bsplit H. bsplit H. pose proof (checked_some _ _ _ _ Hi H1) as HC. unfold reg_at, at2. rewrite nth_map_rav, H0.
  cbn [option_map]. destruct x0 as [j|].
  - bsplit H. bsplit H. destruct HC as [-> _]. rewrite Nat2Z.id, H2. inversion H; subst. reflexivity.
  - inversion H; subst. symmetry. apply nth_error_None. lia.
Qed.
Lemma steps_mid dbg A t1 e t2 A2 : steps dbg A (t1 ++ e :: t2) A2 ->
  exists A1 k en A3 k3, steps dbg A t1 A1 /\ prim_step dbg en A1 k (ev_prim e) = Some (A3, k3, ev_res e) /\ ev_len e = k_len k /\ ev_now e = e_now en.
Proof.
  intros H. apply steps_split in H. destruct H as [A1 [H1 H2]]. inversion H2; subst. exists A1, k, e0, A3, k1. cbn. auto.
Qed.
End P.
