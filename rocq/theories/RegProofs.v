(** Proofs about the values of registers and the arrays locked (RegModel) *)
From Coq Require Import List Arith NArith ZArith Bool Lia.
From Verif Require Import Base DataModel PhvModel ExprModel ExprSpec ActionModel ActionSpec LearnProofs RegModel RegSpec.
Import ListNotations.

(** ** Values *)
Definition content_of (R : list rarr) : content := fun a i => match nth_error R a with Some r => nth i (ra_v r) 0%Z | None => 0%Z end.
Definition dims_of (R : list rarr) : dims := map (fun r => (ra_w r, length (ra_v r))) R.
Lemma dims_nth R a : nth_error (dims_of R) a = option_map (fun r => (ra_w r, length (ra_v r))) (nth_error R a).
Proof. unfold dims_of. apply nth_error_map. Qed.
Lemma nth_list_set {A} (l : list A) i j v d : i < length l -> nth j (list_set l i v) d = if j =? i then v else nth j l d.
Proof.
  intros H. destruct (Nat.eqb_spec j i) as [->|N].
  - apply nth_error_nth. apply nth_error_list_set_eq. exact H.
  - destruct (nth_error l j) eqn:E.
    + rewrite (nth_error_nth _ _ _ E). apply nth_error_nth. rewrite nth_error_list_set_neq by auto. exact E.
    + rewrite nth_error_None in E. rewrite !nth_overflow; auto. rewrite list_set_length. exact E.
Qed.
Lemma dims_set R a r r' : nth_error R a = Some r -> ra_w r' = ra_w r -> length (ra_v r') = length (ra_v r) -> dims_of (list_set R a r') = dims_of R.
Proof.
  intros H W L. apply nth_error_ext. intros i. rewrite !dims_nth. destruct (Nat.eq_dec i a) as [->|N].
  - rewrite nth_error_list_set_eq by (apply nth_error_Some; congruence). rewrite H. cbn. rewrite W, L. reflexivity.
  - rewrite nth_error_list_set_neq by auto. reflexivity.
Qed.
Lemma content_set R a r' b i : a < length R -> content_of (list_set R a r') b i = if b =? a then nth i (ra_v r') 0%Z else content_of R b i.
Proof.
  intros H. unfold content_of. destruct (Nat.eqb_spec b a) as [->|N].
  - rewrite nth_error_list_set_eq by exact H. reflexivity.
  - rewrite nth_error_list_set_neq by auto. reflexivity.
Qed.
Lemma mask_mod v w : Z.land v (Z.shiftl 1 (Z.of_nat w) - 1) = (v mod 2 ^ Z.of_nat w)%Z.
Proof. rewrite <- Z.land_ones by lia. f_equal. Qed.
Lemma store_wrote R a r i v : nth_error R a = Some r -> i < length (ra_v r) ->
  wrote (content_of R) (content_of (list_set R a (ra_store r i v))) a (eq i) (ra_w r) v /\ dims_of (list_set R a (ra_store r i v)) = dims_of R.
Proof.
  intros H L. assert (La : a < length R) by (apply nth_error_Some; congruence). split; [split|].
  - intros j <-. rewrite content_set, Nat.eqb_refl by exact La. unfold ra_store. cbn [ra_v]. rewrite nth_list_set, Nat.eqb_refl by exact L. apply mask_mod.
  - intros b j N. rewrite content_set by exact La. destruct (Nat.eqb_spec b a) as [->|]; [|reflexivity]. unfold ra_store. cbn [ra_v].
    rewrite nth_list_set by exact L. destruct (Nat.eqb_spec j i) as [->|]; [exfalso; apply N; auto|]. unfold content_of. rewrite H. reflexivity.
  - apply (dims_set _ _ r); auto. unfold ra_store. cbn. apply list_set_length.
Qed.
Lemma range_w n : forall r i v, ra_w (ra_range r i n v) = ra_w r /\ length (ra_v (ra_range r i n v)) = length (ra_v r).
Proof. induction n as [|n IH]; intros r i v; cbn; [auto|]. destruct (IH (ra_store r i v) (S i) v) as [A B]. rewrite A, B. cbn. rewrite list_set_length. auto. Qed.
Lemma range_nth n : forall r i v j, i + n <= length (ra_v r) ->
  nth j (ra_v (ra_range r i n v)) 0%Z = if (i <=? j) && (j <? i + n) then (v mod 2 ^ Z.of_nat (ra_w r))%Z else nth j (ra_v r) 0%Z.
Proof.
  induction n as [|n IH]; intros r i v j L; cbn [ra_range].
  - destruct (Nat.leb_spec i j), (Nat.ltb_spec j (i + 0)); cbn; auto; lia.
  - rewrite IH by (cbn; rewrite list_set_length; lia). cbn [ra_store ra_w ra_v]. rewrite nth_list_set by lia.
    destruct (Nat.leb_spec (S i) j), (Nat.ltb_spec j (S i + n)), (Nat.leb_spec i j), (Nat.ltb_spec j (i + S n)), (Nat.eqb_spec j i); cbn; auto; try lia. apply mask_mod.
Qed.
Lemma same_refl c : same c c. Proof. intros b i. reflexivity. Qed.
Lemma cells_of R a r : nth_error R a = Some r -> cells (content_of R) a (length (ra_v r)) = ra_v r.
Proof.
  intros H. unfold cells, content_of. rewrite H. clear H. generalize (ra_v r). intros l. induction l as [|x l IH]; cbn; [reflexivity|]. f_equal. rewrite <- seq_shift, map_map. exact IH.
Qed.
Lemma r_step_ok R k R' r : r_step R k = Some (R', r) -> answers (dims_of R) (content_of R) k (content_of R') r /\ dims_of R' = dims_of R.
Proof.
  destruct k as [a i|a|a i v|a s e v|a|a i v|a i o x y]; cbn [r_step answers]; rewrite dims_nth; destruct (nth_error R a) as [q|] eqn:Ea; cbn [option_map]; intros H;
    try (injection H as <- <-; repeat split; auto using same_refl; fail); try discriminate H.
  - destruct (Nat.leb_spec (length (ra_v q)) i) as [L|L].
    + injection H as <- <-. repeat split; auto using same_refl; intros; lia.
    + destruct (nth_error (ra_v q) i) as [v|] eqn:Ev; [|discriminate]. injection H as <- <-. repeat split; auto using same_refl; intros; [|lia].
      unfold content_of. rewrite Ea, (nth_error_nth _ _ _ Ev). reflexivity.
  - injection H as <- <-. repeat split; auto using same_refl. rewrite (cells_of _ _ _ Ea). reflexivity.
  - destruct (Nat.leb_spec (length (ra_v q)) i) as [L|L]; injection H as <- <-.
    + repeat split; auto using same_refl; intros; lia.
    + destruct (store_wrote R a q i v Ea L) as [W D]. split; [|exact D]. split; [auto|intros; lia].
  - destruct (Nat.ltb_spec (length (ra_v q)) e) as [L|L]; cbn [orb] in H; [injection H as <- <-; repeat split; auto using same_refl; intros; lia|].
    destruct (Nat.ltb_spec e s) as [L2|L2]; injection H as <- <-; [repeat split; auto using same_refl; intros; lia|].
    assert (La : a < length R) by (apply nth_error_Some; congruence). split.
    + split; [|intros; lia]. intros _. split; [|reflexivity]. split.
      * intros i [Hi1 Hi2]. rewrite content_set, Nat.eqb_refl by exact La. rewrite range_nth by lia.
        destruct (Nat.leb_spec s i), (Nat.ltb_spec i (s + (e - s))); cbn; auto; lia.
      * intros b i N. rewrite content_set by exact La. destruct (Nat.eqb_spec b a) as [->|]; [|reflexivity]. rewrite range_nth by lia.
        destruct (Nat.leb_spec s i), (Nat.ltb_spec i (s + (e - s))); cbn; try (unfold content_of; rewrite Ea; reflexivity). exfalso. apply N. split; [auto|lia].
    + apply (dims_set _ _ q); auto; apply range_w.
  - injection H as <- <-. assert (La : a < length R) by (apply nth_error_Some; congruence). split; [split; [split|reflexivity]|].
    + intros i _. rewrite content_set, Nat.eqb_refl by exact La. unfold ra_new; cbn [ra_v]. rewrite Z.mod_0_l by (apply Z.pow_nonzero; lia).
      destruct (Nat.ltb_spec i (length (ra_v q))); [apply nth_repeat|apply nth_overflow; rewrite repeat_length; lia].
    + intros b i N. rewrite content_set by exact La. destruct (Nat.eqb_spec b a) as [->|]; [exfalso; apply N; auto|reflexivity].
    + apply (dims_set _ _ q); auto. cbn. apply repeat_length.
  - cbn [bind] in H. destruct (Nat.ltb_spec i (length (ra_v q))) as [L|L]; [|discriminate H].
    injection H as <- <-. destruct (store_wrote R a q i v Ea L) as [W D]. split; [|exact D].
    exists (ra_w q), (length (ra_v q)). auto.
  - cbn [bind] in H. destruct (d_op o x y) as [v|] eqn:Eo; [|discriminate]. destruct (Nat.ltb_spec i (length (ra_v q))) as [L|L]; [|discriminate]. injection H as <- <-.
    destruct (store_wrote R a q i v Ea L) as [W D]. split; [|exact D]. exists (ra_w q), (length (ra_v q)), v. auto.
Qed.
Lemma r_step_def R k : legal (dims_of R) k -> r_step R k <> None.
Proof.
  destruct k as [a i|a|a i v|a s e v|a|a i v|a i o x y]; cbn [r_step legal]; rewrite ?dims_nth; destruct (nth_error R a) as [q|] eqn:Ea; cbn [option_map]; intros H; try discriminate.
  - destruct (Nat.leb_spec (length (ra_v q)) i) as [L|L]; [discriminate|]. destruct (nth_error (ra_v q) i) eqn:E; [discriminate|]. rewrite nth_error_None in E. lia.
  - destruct (length (ra_v q) <=? i); discriminate.
  - destruct (_ || _); discriminate.
  - destruct H as (w & n & E & L). injection E as <- <-. apply Nat.ltb_lt in L. cbn [bind]. rewrite ?L. discriminate.
  - destruct H as (w & n & E & L). discriminate E.
  - destruct H as [(w & n & E & L) O]. injection E as <- <-. apply Nat.ltb_lt in L. cbn [bind]. rewrite ?L. destruct (d_op o x y); [cbn [bind]; rewrite ?L; discriminate|]. exfalso. apply O. reflexivity.
  - destruct H as [(w & n & E & L) O]. discriminate E.
Qed.
Lemma r_run_ok l : forall R R' rs, r_run R l = Some (R', rs) -> history (dims_of R) (content_of R) l (content_of R') rs /\ dims_of R' = dims_of R.
Proof.
  induction l as [|k l IH]; intros R R' rs H; cbn in H.
  - injection H as <- <-. split; constructor.
  - destruct (r_step R k) as [[R1 r]|] eqn:E; [|discriminate]. cbn in H. destruct (r_run R1 l) as [[R2 rs2]|] eqn:E2; [|discriminate]. injection H as <- <-.
    destruct (r_step_ok _ _ _ _ E) as [A D]. destruct (IH _ _ _ E2) as [B D2]. rewrite D in B, D2. split; [econstructor; eauto|exact D2].
Qed.
Lemma r_run_def l : forall R, Forall (legal (dims_of R)) l -> r_run R l <> None.
Proof.
  induction l as [|k l IH]; intros R F; cbn; [discriminate|]. inversion F as [|? ? F1 F2]; subst. pose proof (r_step_def R k F1) as N. destruct (r_step R k) as [[R1 r]|] eqn:E; [|exfalso; apply N; reflexivity].
  destruct (r_step_ok _ _ _ _ E) as [_ D]. rewrite <- D in F2. specialize (IH _ F2). cbn. destruct (r_run R1 l); [discriminate|exact IH].
Qed.

(** ** Locked arrays *)
Lemma sync_add_in s a b : In b (sync_add s a) <-> In b s \/ b = a.
Proof.
  unfold sync_add. destruct (existsb (Nat.eqb a) s) eqn:E.
  - apply existsb_exists in E. destruct E as (x & I & X). apply Nat.eqb_eq in X. subst x. split; [auto|intros [H| ->]; auto].
  - rewrite in_app_iff. cbn. split; [intros [H|[H|[]]]; auto|intros [H|H]; auto].
Qed.
Lemma sync_add_nodup s a : NoDup s -> NoDup (sync_add s a).
Proof.
  unfold sync_add. destruct (existsb (Nat.eqb a) s) eqn:E; [auto|]. intros N. apply LearnProofs.NoDup_snoc; [exact N|].
  intros I. assert (existsb (Nat.eqb a) s = true); [|congruence]. apply existsb_exists. exists a. split; [exact I|apply Nat.eqb_refl].
Qed.
Definition op_array (o : eop) : list nat := match o with LoadRegRef a _ => [a] | LoadRegGen a => [a] | _ => [] end.
Lemma grab_ops_in l : forall s b, In b (fold_left grab_op l s) <-> In b s \/ In b (flat_map op_array l).
Proof.
  induction l as [|o l IH]; intros s b; cbn [fold_left flat_map]; [cbn; tauto|]. rewrite IH, in_app_iff.
  assert (In b (grab_op s o) <-> In b s \/ In b (op_array o)); [|tauto]. destruct o; cbn; try tauto; rewrite sync_add_in; intuition.
Qed.
Lemma grab_ops_nodup l : forall s, NoDup s -> NoDup (fold_left grab_op l s).
Proof. induction l as [|o l IH]; intros s N; cbn; [exact N|]. apply IH. destruct o; cbn; auto using sync_add_nodup. Qed.
Lemma merge_in o : forall s b, In b (sync_merge s o) <-> In b s \/ In b o.
Proof. unfold sync_merge. induction o as [|a o IH]; intros s b; cbn; [tauto|]. rewrite IH, sync_add_in. intuition. Qed.
Lemma merge_nodup o : forall s, NoDup s -> NoDup (sync_merge s o).
Proof. unfold sync_merge. induction o as [|a o IH]; intros s N; cbn; auto using sync_add_nodup. Qed.
(** Instructions of a compiled expression *)
Definition ars (x : expr) : list nat := flat_map op_array (fst x).
Lemma ars_push x o : ars (push_op x o) = ars x ++ op_array o.
Proof. unfold ars, push_op. cbn. rewrite flat_map_app. cbn. rewrite app_nil_r. reflexivity. Qed.
Lemma ars_const x v : ars (push_const x v) = ars x.
Proof. unfold ars, push_const. cbn. rewrite flat_map_app. cbn. apply app_nil_r. Qed.
Lemma ars_append x e : ars (append_expr x e) = ars x ++ ars e.
Proof. unfold ars, append_expr. cbn. rewrite flat_map_app. f_equal. induction (fst e) as [|o l IH]; cbn; [reflexivity|]. rewrite IH. f_equal. destruct o; reflexivity. Qed.
Lemma build_ars api j : forall x y t, build api j x = Some (y, t) -> forall b, In b (ars y) <-> In b (ars x) \/ In b (arrays_in j).
Proof.
  induction j as [| c IHc l IHl r IHr | neg l IHl r IHr | l IHl f | l IHl i | o l IHl r IHr | h | h f | bb | v | i | a i | a i IHi | k | k f | u | k]; intros x y t H b; cbn [build] in H; cbn [arrays_in].
  - injection H as <- <-. cbn. tauto.
  - destruct (build api c x) as [[x0 t0]|] eqn:E0; [|discriminate]. destruct (build api l ([], [])) as [[x1 t1]|] eqn:E1; [|discriminate]. destruct (build api r ([], [])) as [[x2 t2]|] eqn:E2; [|discriminate].
    cbn in H. destruct (ty_eqb t1 t2); [|discriminate]. injection H as <- <-. unfold push_ternary. rewrite ars_append, ars_push, ars_append, !ars_push. cbn [op_array]. rewrite !app_nil_r, !in_app_iff.
    rewrite (IHc _ _ _ E0), (IHl _ _ _ E1), (IHr _ _ _ E2). cbn. tauto.
  - destruct (build api l x) as [[x1 t1]|] eqn:E1; [|discriminate]. cbn in H. destruct (build api r x1) as [[x2 t2]|] eqn:E2; [|discriminate]. cbn in H. destruct (ty_eqb t1 t2); [|discriminate].
    destruct (eq_opcode neg t1) as [o|] eqn:Eo; [|discriminate]. injection H as <- <-. rewrite ars_push, in_app_iff. assert (op_array o = []) as ->.
    { destruct t1; try discriminate Eo; cbn in Eo; injection Eo as <-; destruct neg; reflexivity. }
    rewrite (IHr _ _ _ E2), (IHl _ _ _ E1), in_app_iff. cbn. tauto.
  - destruct (build api l x) as [[x1 t1]|] eqn:E1; [|discriminate]. cbn in H. destruct (ty_eqb t1 THeader); [|discriminate]. injection H as <- <-. rewrite ars_push, in_app_iff, (IHl _ _ _ E1). cbn. tauto.
  - destruct (build api l x) as [[x1 t1]|] eqn:E1; [|discriminate]. cbn in H. destruct (ty_eqb t1 TUnion); [|discriminate]. injection H as <- <-. rewrite ars_push, in_app_iff, (IHl _ _ _ E1). destruct api; cbn; tauto.
  - assert (Q : exists x1 x2 t2, build api r x1 = Some (x2, t2) /\ y = push_op x2 (opcode o) /\ (forall b, In b (ars x1) <-> In b (ars x) \/ In b (arrays_in l)) /\ True).
    { destruct (match o with OBin BAdd | OBin BSub => match l with JNull => true | _ => false end | _ => false end) eqn:Z.
      - assert (l = JNull) as -> by (destruct o as [[]| | | | | | | | | | | | | | | | | | |]; try discriminate Z; destruct l; congruence).
        assert (H' : (x2 <- build api r (push_const x 0%Z) ;; Some (push_op (fst x2) (opcode o), opcode_type o)) = Some (y, t)) by (destruct o as [[]| | | | | | | | | | | | | | | | | | |]; try discriminate Z; exact H).
        destruct (build api r (push_const x 0%Z)) as [[x2 t2]|] eqn:E2; [|discriminate]. injection H' as <- <-. exists (push_const x 0%Z), x2, t2. split; [exact E2|split; [reflexivity|split; [|exact I]]]. intros q; rewrite ars_const; cbn; tauto.
      - assert (H' : (x1 <- build api l x ;; x2 <- build api r (fst x1) ;; Some (push_op (fst x2) (opcode o), opcode_type o)) = Some (y, t)).
        { destruct o as [[]| | | | | | | | | | | | | | | | | | |]; try exact H; destruct l; try exact H; discriminate Z. }
        destruct (build api l x) as [[x1 t1]|] eqn:E1; [|discriminate]. cbn in H'. destruct (build api r x1) as [[x2 t2]|] eqn:E2; [|discriminate]. injection H' as <- <-.
        exists x1, x2, t2. split; [exact E2|split; [reflexivity|split; [|exact I]]]. apply (IHl _ _ _ E1). }
    destruct Q as (x1 & x2 & t2 & E2 & -> & Q & _). rewrite ars_push, in_app_iff. assert (op_array (opcode o) = []) as -> by (destruct o; reflexivity).
    rewrite (IHr _ _ _ E2), Q, in_app_iff. cbn. tauto.
  - injection H as <- <-. rewrite ars_push, in_app_iff. cbn. tauto.
  - injection H as <- <-. rewrite ars_push, in_app_iff. cbn. tauto.
  - injection H as <- <-. rewrite ars_push, in_app_iff. cbn. tauto.
  - injection H as <- <-. rewrite ars_const. cbn. tauto.
  - injection H as <- <-. rewrite ars_push, in_app_iff. cbn. tauto.
  - injection H as <- <-. rewrite ars_push, in_app_iff. cbn. tauto.
  - destruct (build api i x) as [[x1 t1]|] eqn:E1; [|discriminate]. cbn in H. injection H as <- <-. rewrite ars_push, in_app_iff, (IHi _ _ _ E1). cbn. tauto.
  - injection H as <- <-. rewrite ars_push, in_app_iff. cbn. tauto.
  - injection H as <- <-. rewrite ars_push, in_app_iff. cbn. tauto.
  - injection H as <- <-. rewrite ars_push, in_app_iff. cbn. tauto.
  - injection H as <- <-. rewrite ars_push, in_app_iff. cbn. tauto.
Qed.
Lemma assign_op_array o s o' s' : assign_op o s = Some (o', s') -> op_array o' = op_array o.
Proof.
  destruct o; cbn; intros H; repeat match type of H with context [popr ?x] => destruct (popr x); cbn in H; try discriminate H end; injection H as <- <-; reflexivity.
Qed.
Lemma assign_ars l : forall s cnt l' s' n, assign l s cnt = Some (l', s', n) -> flat_map op_array l' = flat_map op_array l.
Proof.
  induction l as [|o l IH]; intros s cnt l' s' n H; cbn in H.
  - injection H as <- <- <-. reflexivity.
  - destruct (assign_op o s) as [[o1 s1]|] eqn:E; [|discriminate]. cbn in H. destruct (assign l s1 _) as [[[l2 s2] n2]|] eqn:E2; [|discriminate]. injection H as <- <- <-.
    cbn. rewrite (assign_op_array _ _ _ _ E), (IH _ _ _ _ _ E2). reflexivity.
Qed.
Lemma compile_arrays j x s : compile false j = Some x -> forall b, In b (grab s x) <-> In b s \/ In b (arrays_in j).
Proof.
  unfold compile, finish. intros H b. destruct (build false j ([], [])) as [[y t]|] eqn:E; [|discriminate]. cbn in H. destruct (assign (fst y) ([], 0) 0) as [[[l q] n]|] eqn:E2; [|discriminate]. cbn in H. injection H as <-.
  unfold grab. cbn. rewrite grab_ops_in, (assign_ars _ _ _ _ _ _ E2). change (flat_map op_array (fst y)) with (ars y). rewrite (build_ars _ _ _ _ _ E). cbn. tauto.
Qed.
Lemma grab_nodup s x : NoDup s -> NoDup (grab s x).
Proof. apply grab_ops_nodup. Qed.
Lemma sync_scalar_in s p s' : sync_scalar s p = Some s' -> (forall b, In b s' <-> In b s \/ In b (arrays_scalar p)) /\ (NoDup s -> NoDup s').
Proof.
  destruct p as [z|i|h f|j|a j|a i|k f]; cbn [sync_scalar arrays_scalar]; intros H; try (injection H as <-; split; [cbn; tauto|auto]; fail).
  - destruct (compile false j) as [x|] eqn:E; [|discriminate]. injection H as <-. split; [apply (compile_arrays _ _ _ E)|apply grab_nodup].
  - destruct (compile false j) as [x|] eqn:E; [|discriminate]. injection H as <-. split; [|auto using sync_add_nodup, grab_nodup]. intros b. rewrite sync_add_in, (compile_arrays _ _ _ E). cbn. intuition.
  - injection H as <-. split; [|apply sync_add_nodup]. intros b. rewrite sync_add_in. cbn. intuition.
Qed.
Lemma sync_scalars_in l : forall s s', sync_scalars s l = Some s' -> (forall b, In b s' <-> In b s \/ In b (flat_map arrays_scalar l)) /\ (NoDup s -> NoDup s').
Proof.
  induction l as [|p l IH]; intros s s' H; cbn in H.
  - injection H as <-. split; [cbn; tauto|auto].
  - destruct (sync_scalar s p) as [s1|] eqn:E; [|discriminate]. destruct (sync_scalar_in _ _ _ E) as [A A2]. destruct (IH _ _ H) as [B B2]. split; [|auto].
    intros b. cbn. rewrite B, A, in_app_iff. tauto.
Qed.
Lemma sync_param_in ro s p s' : sync_param ro s p = Some s' -> plain_header p -> (forall b, In b s' <-> In b s \/ In b (arrays_param ro p)) /\ (NoDup s -> NoDup s').
Proof.
  destruct p as [p|o|j|z|l|l]; cbn [sync_param arrays_param plain_header]; intros H P.
  - apply sync_scalar_in. exact H.
  - injection H as <-. destruct (ro o) as [a|]; [|split; [cbn; tauto|auto]]. split; [|apply sync_add_nodup]. intros b. rewrite sync_add_in. cbn. intuition.
  - destruct (compile false j); [|discriminate]. injection H as <-. rewrite P. split; [cbn; tauto|auto].
  - injection H as <-. split; [cbn; tauto|auto].
  - apply sync_scalars_in. exact H.
  - injection H as <-. split; [cbn; tauto|auto].
Qed.
Lemma sync_params_in ro l : forall s s', sync_params ro s l = Some s' -> Forall plain_header l -> (forall b, In b s' <-> In b s \/ In b (flat_map (arrays_param ro) l)) /\ (NoDup s -> NoDup s').
Proof.
  induction l as [|p l IH]; intros s s' H F; cbn in H.
  - injection H as <-. split; [cbn; tauto|auto].
  - inversion F as [|? ? F1 F2]; subst. destruct (sync_param ro s p) as [s1|] eqn:E; [|discriminate]. destruct (sync_param_in _ _ _ _ E F1) as [A A2]. destruct (IH _ _ H F2) as [B B2]. split; [|auto].
    intros b. cbn. rewrite B, A, in_app_iff. tauto.
Qed.
Lemma sync_prims_in ro l : forall s s', sync_prims ro s l = Some s' -> plain_headers l -> (forall b, In b s' <-> In b s \/ In b (arrays_action ro l)) /\ (NoDup s -> NoDup s').
Proof.
  induction l as [|p l IH]; intros s s' H F; cbn in H.
  - injection H as <-. split; [cbn; tauto|auto].
  - inversion F as [|? ? F1 F2]; subst. destruct (sync_params ro s (snd p)) as [s1|] eqn:E; [|discriminate]. destruct (sync_params_in _ _ _ _ E F1) as [A A2]. destruct (IH _ _ H F2) as [B B2]. split; [|auto].
    intros b. cbn. rewrite B, A, in_app_iff. tauto.
Qed.
Lemma state_locks_in ro l : forall s s', state_locks ro s l = Some s' -> Forall plain_pop l -> (forall b, In b s' <-> In b s \/ In b (flat_map (arrays_pop ro) l)) /\ (NoDup s -> NoDup s').
Proof.
  induction l as [|p l IH]; intros s s' H F; cbn in H.
  - injection H as <-. split; [cbn; tauto|auto].
  - inversion F as [|? ? F1 F2]; subst. destruct (pop_locks ro s p) as [s1|] eqn:E; [|discriminate].
    assert (A : (forall b, In b s1 <-> In b s \/ In b (arrays_pop ro p)) /\ (NoDup s -> NoDup s1)).
    { destruct p as [j|j|c e|j|prog|]; cbn [pop_locks arrays_pop plain_pop] in *; try (injection E as <-; rewrite ?F1; split; [cbn; tauto|auto]; fail).
      - destruct (compile false j) as [x|] eqn:Ex; [|discriminate]. injection E as <-. split; [apply (compile_arrays _ _ _ Ex)|apply grab_nodup].
      - destruct (action_locks ro prog) as [L|] eqn:Ex; [|discriminate]. injection E as <-. destruct (sync_prims_in _ _ _ _ Ex F1) as [C _]. split; [|apply merge_nodup].
        intros b. rewrite merge_in, C. cbn. tauto. }
    destruct A as [A A2]. destruct (IH _ _ H F2) as [B B2]. split; [|auto]. intros b. cbn. rewrite B, A, in_app_iff. tauto.
Qed.

(** ** Evaluations look at no other array *)
Lemma agree_sub L M E r : agree_on L E r -> incl M L -> agree_on M E r.
Proof. intros A I a i H. apply A. apply I. exact H. Qed.
Lemma sem_un_regs E r o v : sem_un (with_regs E r) o v = sem_un E o v.
Proof. reflexivity. Qed.
Lemma sem_bin_regs E r o v w : sem_bin (with_regs E r) o v w = sem_bin E o v w.
Proof. reflexivity. Qed.
Lemma value_regs E r j : agree_on (arrays_in j) E r -> value (with_regs E r) j = value E j.
Proof.
  induction j as [| c IHc l IHl rr IHr | neg l IHl rr IHr | l IHl f | l IHl i | o l IHl rr IHr | h | h f | bb | v | i | a i | a i IHi | k | k f | u | k]; intros A; cbn [value]; cbn [arrays_in] in A; try reflexivity.
  - rewrite IHc, IHl, IHr; [reflexivity|..]; eapply agree_sub; eauto; auto using incl_appl, incl_appr, incl_refl.
  - rewrite IHl, IHr; [reflexivity|..]; eapply agree_sub; eauto; auto using incl_appl, incl_appr, incl_refl.
  - rewrite IHl by exact A. reflexivity.
  - rewrite IHl by exact A. reflexivity.
  - rewrite IHl, IHr; [reflexivity|..]; eapply agree_sub; eauto; auto using incl_appl, incl_appr, incl_refl.
  - cbn. rewrite (A a) by (left; reflexivity). reflexivity.
  - rewrite IHi by (eapply agree_sub; eauto; apply incl_tl, incl_refl). destruct (value E i) as [[z| | | | |]|]; try reflexivity. destruct (Z_lt_dec z 0); [reflexivity|]. cbn. rewrite (A a) by (left; reflexivity). reflexivity.
Qed.
Lemma refers_regs E r j : agree_on (arrays_in j) E r -> refers (with_regs E r) j = refers E j.
Proof.
  induction j as [| c IHc l IHl rr IHr | neg l IHl rr IHr | l IHl f | l IHl i | o l IHl rr IHr | h | h f | bb | v | i | a i | a i IHi | k | k f | u | k]; intros A; cbn [refers]; cbn [arrays_in] in A; try reflexivity.
  - rewrite value_regs, IHl, IHr; [reflexivity|..]; eapply agree_sub; eauto; auto using incl_appl, incl_appr, incl_refl.
  - rewrite value_regs by exact A. reflexivity.
  - rewrite value_regs by (eapply agree_sub; eauto; apply incl_tl, incl_refl). reflexivity.
Qed.
Lemma refers_in E j a i : refers E j = Some (PReg a i) -> In a (arrays_in j).
Proof.
  induction j as [| c IHc l IHl rr IHr | neg l IHl rr IHr | l IHl f | l IHl q | o l IHl rr IHr | h | h f | bb | v | q | b q | b q IHi | k | k f | u | k]; cbn [refers arrays_in]; intros H; try discriminate H.
  - destruct (value E c) as [[ |[]| | | |]|]; try discriminate; rewrite !in_app_iff; auto.
  - destruct (value E l) as [[ | |h| | |]|]; discriminate.
  - injection H as <- <-. left. reflexivity.
  - destruct (value E q) as [[z| | | | |]|]; try discriminate. destruct (Z_lt_dec z 0); [discriminate|]. injection H as <- <-. left. reflexivity.
  - destruct (e_last E k); discriminate.
Qed.
Lemma sc_regs E r ad p : agree_on (arrays_scalar p) E r -> sc_means (with_regs E r) ad p = sc_means E ad p.
Proof.
  destruct p as [z|i|h f|j|a j|a i|k f]; cbn [sc_means arrays_scalar]; intros A; try reflexivity.
  - rewrite value_regs by exact A. reflexivity.
  - rewrite value_regs by (eapply agree_sub; eauto; apply incl_tl, incl_refl). destruct (value E j) as [[z| | | | |]|]; try reflexivity. destruct (Z_lt_dec z 0); [reflexivity|]. unfold reg_cell. cbn. rewrite (A a) by (left; reflexivity). reflexivity.
  - unfold reg_cell. cbn. rewrite (A a) by (left; reflexivity). reflexivity.
Qed.
Lemma cell_in E a i s : reg_cell E a i = Some s -> s = SeeLoc (PReg a i).
Proof. unfold reg_cell. destruct (e_reg E a i); intros H; [injection H as <-; reflexivity|discriminate]. Qed.
Lemma sc_refs ro E ad p s : sc_means E ad p = Some s -> refs_in ro (arrays_scalar p) s /\ (forall z, s <> SeeObj z).
Proof.
  destruct p as [z|i|h f|j|a j|a i|k f]; cbn [sc_means arrays_scalar]; intros H.
  - injection H as <-. split; [exact I|discriminate].
  - destruct (nth_error ad i); [|discriminate]. injection H as <-. split; [exact I|discriminate].
  - unfold field_cell in H. destruct (e_field E h f); [|discriminate]. injection H as <-. split; [exact I|discriminate].
  - destruct (value E j) as [[z| | | | |]|]; try discriminate. injection H as <-. split; [exact I|discriminate].
  - destruct (value E j) as [[z| | | | |]|]; try discriminate. destruct (Z_lt_dec z 0); [discriminate|]. apply cell_in in H. subst s. split; [left; reflexivity|discriminate].
  - apply cell_in in H. subst s. split; [left; reflexivity|discriminate].
  - destruct (e_last E k) as [h|]; [|discriminate]. unfold field_cell in H. destruct (e_field E h f); [|discriminate]. injection H as <-. split; [exact I|discriminate].
Qed.
Lemma ref_regs E r ad p : agree_on (arrays_scalar p) E r -> ref_means (with_regs E r) ad p = ref_means E ad p.
Proof.
  intros A. destruct p as [z|i|h f|j|a j|a i|k f]; try reflexivity; try (exact (sc_regs E r ad _ A)). cbn [ref_means]. rewrite value_regs, refers_regs by exact A. reflexivity.
Qed.
Lemma ref_refs ro E ad p s : ref_means E ad p = Some s -> refs_in ro (arrays_scalar p) s.
Proof.
  destruct p as [z|i|h f|j|a j|a i|k f]; intros H; try discriminate H; try (exact (proj1 (sc_refs ro E ad _ _ H))). cbn [ref_means] in H.
  destruct (value E j); [|discriminate]. destruct (refers E j) as [q|] eqn:Q; [|discriminate]. injection H as <-. destruct q; cbn; auto. eapply refers_in; eauto.
Qed.
Lemma now_regs ro E r s L : refs_in ro L s -> agree_on L E r -> now (with_regs E r) s = now E s.
Proof. destruct s as [z|[t|h f|a i|i|i]|o|h|q|l|l]; cbn; auto. Qed.
Lemma vec_regs (ro : nat -> option nat) E r ad l : agree_on (flat_map arrays_scalar l) E r -> vec_means (with_regs E r) ad l = vec_means E ad l.
Proof.
  induction l as [|p l IH]; intros A; cbn [vec_means]; [reflexivity|]. cbn [flat_map] in A.
  assert (A1 : agree_on (arrays_scalar p) E r) by (eapply agree_sub; eauto; apply incl_appl, incl_refl).
  rewrite (sc_regs _ _ _ _ A1), IH by (eapply agree_sub; [exact A|apply incl_appr, incl_refl]). destruct (sc_means E ad p) as [s|] eqn:S; [|reflexivity].
  rewrite (now_regs ro E r s (arrays_scalar p)); [reflexivity| |exact A1]. apply (sc_refs ro E ad p s S).
Qed.
Lemma means_regs ro E r ad m p : agree_on (arrays_param ro p) E r -> means (with_regs E r) ad m p = means E ad m p.
Proof.
  destruct m, p as [p|o|j|z|l|l]; cbn [means arrays_param]; intros A; try reflexivity; auto using sc_regs, ref_regs.
  - rewrite value_regs by exact A. reflexivity.
  - rewrite (vec_regs ro) by exact A. reflexivity.
Qed.
Lemma means_refs ro E ad m p s : means E ad m p = Some s -> refs_in ro (arrays_param ro p) s.
Proof.
  destruct m, p as [p|o|j|z|l|l]; cbn [means arrays_param]; intros H; try discriminate H; try (injection H as <-; exact I).
  - eapply sc_refs; eauto.
  - eapply ref_refs; eauto.
  - injection H as <-. cbn. destruct (ro o); cbn; auto.
  - destruct (value E j) as [[ | |h| | |]|]; try discriminate. injection H as <-. exact I.
  - destruct (vec_means E ad l); [|discriminate]. injection H as <-. exact I.
Qed.
Lemma means_all_regs ro E r ad ms : forall ps, agree_on (flat_map (arrays_param ro) ps) E r -> means_all (with_regs E r) ad ms ps = means_all E ad ms ps.
Proof.
  induction ms as [|m ms IH]; intros [|p ps] A; cbn [means_all]; try reflexivity. cbn [flat_map] in A.
  rewrite (means_regs ro), IH; [reflexivity|..]; eapply agree_sub; eauto; auto using incl_appl, incl_appr, incl_refl.
Qed.
Lemma refs_sub ro L M s : refs_in ro L s -> incl L M -> refs_in ro M s.
Proof. destruct s as [z|[t|h f|a i|i|i]|o|h|q|l|l]; cbn; auto. destruct (ro o); auto. Qed.
Lemma means_all_refs ro E ad ms : forall ps l, means_all E ad ms ps = Some l -> Forall (refs_in ro (flat_map (arrays_param ro) ps)) l.
Proof.
  induction ms as [|m ms IH]; intros [|p ps] l H; cbn [means_all] in H; try discriminate H.
  - injection H as <-. constructor.
  - destruct (means E ad m p) as [s|] eqn:Es; [|discriminate]. destruct (means_all E ad ms ps) as [l'|] eqn:El; [|discriminate]. injection H as <-. cbn [flat_map]. constructor.
    + eapply refs_sub; [eapply means_refs; eauto|apply incl_appl, incl_refl].
    + eapply Forall_impl; [|apply (IH _ _ El)]. intros x X. eapply refs_sub; [exact X|apply incl_appr, incl_refl].
Qed.
