(** Whole actions; the arguments of one call. *)
From Coq Require Import List Arith ZArith Lia Bool.
From Verif Require Import Base PhvModel ExprModel ExprSpec ExprProps ActionModel ActionSpec ActionProofs.
Import ListNotations.

Lemma Forall2_length {A B} (P : A -> B -> Prop) l m : Forall2 P l m -> length l = length m.
Proof. induction 1; cbn; congruence. Qed.
Lemma grows_refl a : grows a a.
Proof. repeat split; apply prefix_refl. Qed.
Lemma grows_trans a b c : grows a b -> grows b c -> grows a c.
Proof. intros (A1 & A2 & A3) (B1 & B2 & B3). repeat split; eapply prefix_trans; eauto. Qed.
Lemma regen_regen g h l : map (regen g) (map (regen h) l) = map (regen g) l.
Proof. rewrite map_map. apply map_ext. intros []; reflexivity. Qed.
Lemma Forall2_regen a g l cs : Forall2 (comp a) l cs -> Forall2 (comp a) l (map (regen g) cs).
Proof. induction 1; cbn; constructor; auto. apply regen_comp. assumption. Qed.
Lemma push_params_ok l : forall a n, Forall pok l -> binv a n ->
  exists a' n' cs g, push_params a n l = Some (a', n') /\ n <= n' /\ binv a' n' /\ a_params a' = map (regen g) (a_params a) ++ cs /\
    Forall2 (comp a') l cs /\ count cs = length (filter is_ex l) /\ grows a a' /\ a_calls a' = a_calls a.
Proof.
  induction l as [|p l IH]; intros a n F B; cbn [push_params].
  { exists a, n, [], (a_gen a). repeat split; auto; try apply B; try apply prefix_refl. rewrite app_nil_r. symmetry. eapply restring_regen. rewrite (b_str _ _ B). reflexivity. }
  inversion F as [|? ? F1 F2]; subst. destruct (push_param_ok a n p F1 B) as (a1 & n1 & c & g1 & E1 & L1 & B1 & P1 & C1 & X1 & G1 & D1).
  rewrite E1. cbn [bind fst snd]. destruct (IH a1 n1 F2 B1) as (a2 & n2 & cs & g2 & E2 & L2 & B2 & P2 & C2 & X2 & G2 & D2).
  exists a2, n2, (regen g2 c :: cs), g2. split; [exact E2|]. split; [lia|]. split; [exact B2|].
  split; [rewrite P2, P1, map_app, regen_regen, <- app_assoc; reflexivity|]. split; [constructor; [apply regen_comp; exact (comp_mono _ _ _ _ G2 C1)|exact C2]|].
  split.
  { unfold count. cbn [filter]. replace (is_expr (regen g2 c)) with (is_ex p) by (rewrite <- X1; destruct c; reflexivity). unfold count in X2. destruct (is_ex p); cbn [length]; rewrite X2; reflexivity. }
  split; [eapply grows_trans; eauto|congruence].
Qed.
Lemma param_pok m p : param_ok m p -> pok p.
Proof. destruct m, p; cbn; tauto. Qed.
Lemma params_pok ms ps : Forall2 param_ok ms ps -> Forall pok ps.
Proof. induction 1; constructor; eauto using param_pok. Qed.
Lemma call_arity c : call_ok c -> length (snd c) = arity (fst c).
Proof. intros [F _]. apply Forall2_length in F. unfold arity. congruence. Qed.

Record ginv (a : afn) (n : nat) (prog : list (prim * list jparam)) : Prop := {
  g_b : binv a n;
  g_next : match rev (a_calls a) with [] => 0 | (q, o) :: _ => o + arity q end = length (a_params a);
  g_len : length (a_calls a) = length prog;
  g_call : forall i p ps, nth_error prog i = Some (p, ps) -> exists A B C, nth_error (a_calls a) i = Some (p, length A) /\ a_params a = A ++ B ++ C /\ Forall2 (comp a) ps B;
  g_count : count (a_params a) = expr_params prog }.
Lemma comp_calls p a0 q c :
  comp a0 q c -> comp (mk_afn (a_params a0) (a_subs a0) (a_consts a0) (a_strs a0) (a_gen a0) p) q c.
Proof. apply comp_mono. repeat split; apply prefix_refl. Qed.
Lemma add_prim_ok a n prog c : call_ok c -> ginv a n prog ->
  exists a' n', add_prim a n c = Some (a', n') /\ n <= n' /\ ginv a' n' (prog ++ [c]).
Proof.
  intros Ok [gb gn gl gc ge]. unfold add_prim. rewrite (call_arity _ Ok), Nat.eqb_refl.
  set (a0 := push_prim a (fst c)). assert (B0 : binv a0 n) by (destruct gb; constructor; assumption).
  destruct (push_params_ok (snd c) a0 n (params_pok _ _ (proj1 Ok)) B0) as (a1 & n1 & cs & g & E & L & B1 & P1 & C1 & X1 & G1 & D1).
  exists a1, n1. split; [exact E|]. split; [exact L|]. cbn [a0 push_prim a_params a_calls] in P1, D1.
  constructor.
  - exact B1.
  - rewrite D1, rev_unit, P1, app_length, map_length, gn, <- (call_arity _ Ok). apply Forall2_length in C1. lia.
  - rewrite D1, !app_length, gl. reflexivity.
  - intros i p ps H. destruct (Nat.lt_ge_cases i (length prog)) as [Hi|Hi].
    + rewrite nth_error_app1 in H by exact Hi. destruct (gc _ _ _ H) as (A & B & C & N & Q & F).
      exists (map (regen g) A), (map (regen g) B), (map (regen g) C ++ cs). split; [|split].
      * rewrite D1, nth_error_app1, N, map_length by lia. reflexivity.
      * rewrite P1, Q, !map_app, <- !app_assoc. reflexivity.
      * apply Forall2_regen. eapply Forall2_impl; [|exact F]. intros q d. apply comp_mono. destruct G1 as (U & V & Z). repeat split; assumption.
    + rewrite nth_error_app2 in H by exact Hi. destruct (i - length prog) as [|k] eqn:K; [|destruct k; discriminate]. cbn in H. injection H as ->.
      exists (map (regen g) (a_params a)), cs, []. split; [|split].
      * rewrite D1, nth_error_app2 by lia. replace (i - length (a_calls a)) with 0 by lia. cbn [nth_error fst]. rewrite gn, map_length. reflexivity.
      * rewrite P1, app_nil_r. reflexivity.
      * exact C1.
  - rewrite P1, count_app, count_regen, ge, X1. unfold expr_params. rewrite flat_map_app, filter_app, app_length. cbn [flat_map]. rewrite app_nil_r. reflexivity.
Qed.
Lemma add_prims_ok r : forall a n prog, Forall call_ok r -> ginv a n prog ->
  exists a' n', add_prims a n r = Some (a', n') /\ n <= n' /\ ginv a' n' (prog ++ r).
Proof.
  induction r as [|c r IH]; intros a n prog F G; cbn [add_prims].
  { exists a, n. rewrite app_nil_r. auto. }
  inversion F as [|? ? F1 F2]; subst. destruct (add_prim_ok _ _ _ _ F1 G) as (a1 & n1 & E1 & L1 & G1). rewrite E1. cbn [bind fst snd].
  destruct (IH a1 n1 _ F2 G1) as (a2 & n2 & E2 & L2 & G2). exists a2, n2. rewrite <- app_assoc in G2. split; [exact E2|]. split; [lia|exact G2].
Qed.
Lemma ginv_empty n : 1 <= n -> ginv empty_afn n [].
Proof.
  intros H. constructor; try reflexivity; cbn.
  - constructor; cbn; auto; try (intros A off x C E; destruct A; discriminate).
  - intros [|i] p ps Q; discriminate.
Qed.
Lemma built_ginv n0 prog fn n1 : Forall call_ok prog -> 1 <= n0 -> add_prims empty_afn n0 prog = Some (fn, n1) -> ginv fn n1 prog.
Proof.
  intros F H E. destruct (add_prims_ok prog _ _ [] F (ginv_empty n0 H)) as (a' & n' & E' & _ & G). rewrite E in E'. injection E' as -> ->. exact G.
Qed.

(** ** Arguments *)
Definition tgood (t : dtemps) : Prop := 1 <= length (dt t).
Lemma grow_ok k : forall t off, k + length (dt t) > off ->
  length (dt t) <= length (dt (grow k t off)) /\ off < length (dt (grow k t off)) /\ (off < length (dt t) -> grow k t off = t).
Proof.
  induction k as [|k IH]; intros t off H; cbn [grow]; [split; [lia|]; split; [lia|reflexivity]|].
  destruct (length (dt t) <=? off) eqn:Q; [apply Nat.leb_le in Q|apply Nat.leb_gt in Q; repeat split; auto].
  set (t1 := if length (dt t) =? dt_cap t then _ else _).
  assert (L : length (dt t1) = S (length (dt t))) by (unfold t1; destruct (_ =? _); cbn [dt]; rewrite app_length; cbn; lia).
  destruct (IH t1 off) as (H1 & H2 & _); [lia|]. split; [lia|]. split; [exact H2|lia].
Qed.
Definition woff (m : mode) (c : cparam) : option nat := match m, c with MConst, CExpr off _ => Some off | _, _ => None end.
Definition vecx (fn : afn) (m : mode) (c : cparam) : bool :=
  match m, c with MVec, CVec s e => match slice (a_subs fn) s e with Some l => existsb is_expr l | None => false end | _, _ => false end.
Definition keeps (w : option nat) (t t2 : dtemps) : Prop :=
  forall g i, 0 < i -> w <> Some i -> (forall off, w = Some off -> off < length (dt t)) -> read t (RTemp g i) <> None -> read t2 (RTemp g i) = read t (RTemp g i).
Definition eff (fn : afn) (m : mode) (c : cparam) (t : dtemps) (r : ref) (t2 : dtemps) : Prop :=
  length (dt t) <= length (dt t2) /\
  (match woff m c with Some off => r = RTemp (dt_gen t2) off /\ off < length (dt t2) | None => forall g i, r <> RTemp g i end) /\
  (vecx fn m c = false -> keeps (woff m c) t t2).
Lemma keeps_refl w t : keeps w t t. Proof. intros g i _ _ _ _. reflexivity. Qed.
Lemma read_set0 t z : keeps None t (mk_dt (dt_gen t) (dt_cap t) (list_set (dt t) 0 z)).
Proof. intros g i Hi _ _ _. cbn [read dt_gen dt]. rewrite nth_error_list_set_neq by lia. reflexivity. Qed.
Lemma value_data E j v : has_ty j TData -> no_member j -> value E j = Some v -> exists z, v = VD z.
Proof.
  intros T N V. destruct (C36_expressions j TData T N) as (x & _ & A). destruct (A E []) as [A1 _]. rewrite V in A1. destruct v; cbn in A1; try contradiction. eauto.
Qed.
Lemma arith_value E old j x : has_ty j TData -> no_member j -> compile false j = Some x ->
  eval_arith E x old = match value E j with Some (VD z) => Some z | _ => None end.
Proof.
  intros T N C. destruct (C36_expressions j TData T N) as (x' & C' & A). rewrite C in C'. injection C' as <-. destruct (A E old) as [A1 _].
  destruct (value E j) as [v|] eqn:V; [|exact A1]. destruct (value_data _ _ _ T N V) as [z ->]. exact A1.
Qed.
Lemma reg_at_cell E a i : (match reg_at E a i with Some q => Some (SeeLoc q) | None => None end) = reg_cell E a i.
Proof. unfold reg_at, reg_cell. destruct (e_reg E a i); reflexivity. Qed.
Lemma get_size_spec z : get_size z = if Z_lt_dec z 0 then None else Some (z mod 2 ^ 64)%Z.
Proof. unfold get_size, two64. destruct (Z.ltb_spec z 0), (Z_lt_dec z 0); try lia; reflexivity. Qed.
Lemma const_ok E old ad fn t p c : sp_ok p -> sc_comp fn p c -> tgood t ->
  match sc_means E ad p with
  | Some s => exists r t2, to_const E old ad fn t c = Some (r, t2) /\ read t2 r = Some s /\ length (dt t) <= length (dt t2) /\
      (match woff MConst c with Some off => r = RTemp (dt_gen t2) off /\ off < length (dt t2) | None => forall g i, r <> RTemp g i end) /\ keeps (woff MConst c) t t2
  | None => to_const E old ad fn t c = None
  end.
Proof.
  intros Ok C Tg. destruct p, c; try contradiction; cbn [sc_comp sp_ok sc_means to_const] in *.
  - rewrite C. cbn [bind]. exists (RVal z), t. repeat split; auto; try discriminate; try apply keeps_refl.
  - subst. destruct (nth_error ad i0); cbn [bind]; [|reflexivity]. eexists; eexists. split; [reflexivity|]. repeat split; auto; try discriminate; try apply keeps_refl.
  - destruct C as [-> ->]. unfold field_cell, field_at. destruct (e_field E h0 f0); cbn [bind]; [|reflexivity]. eexists; eexists. split; [reflexivity|]. repeat split; auto; try discriminate; try apply keeps_refl.
  - destruct C as [C Off]. destruct Ok as [T N]. rewrite (arith_value E old j x T N C). destruct (value E j) as [v|] eqn:V; [|reflexivity].
    destruct (value_data _ _ _ T N V) as [z ->]. cbn [bind]. destruct (grow_ok (S off) t off) as (G1 & G2 & G3); [unfold tgood in Tg; lia|].
    eexists; eexists. split; [reflexivity|]. cbn [read dt_gen dt woff]. rewrite Nat.eqb_refl, nth_error_list_set_eq by exact G2. cbn [bind].
    split; [reflexivity|]. rewrite list_set_length. split; [exact G1|]. split; [split; [reflexivity|exact G2]|].
    intros g i Hi Hw Hl Hr. rewrite G3 by (apply Hl; reflexivity). cbn [read dt_gen dt]. rewrite nth_error_list_set_neq by congruence. reflexivity.
  - destruct C as [-> C]. destruct Ok as [T N]. rewrite (arith_value E old j x T N C). destruct (value E j) as [v|] eqn:V; [|reflexivity].
    destruct (value_data _ _ _ T N V) as [z ->]. cbn [bind]. rewrite get_size_spec. destruct (Z_lt_dec z 0); cbn [bind]; [reflexivity|].
    rewrite <- reg_at_cell. destruct (reg_at E a0 (z mod 2 ^ 64)%Z) as [q|]; cbn [bind]; [|reflexivity].
    eexists; eexists. split; [reflexivity|]. cbn [woff]. split; [reflexivity|]. cbn [dt]. rewrite list_set_length. split; [lia|]. split; [discriminate|]. apply read_set0.
  - destruct C as [-> ->]. rewrite <- reg_at_cell. destruct (reg_at E a0 (Z.of_nat i0)); cbn [bind]; [|reflexivity]. eexists; eexists. split; [reflexivity|]. repeat split; auto; try discriminate; try apply keeps_refl.
  - destruct C as [-> ->]. unfold last_field, field_cell. destruct (e_last E k0) as [h|]; cbn [bind]; [|reflexivity]. destruct (e_field E h f0); cbn [bind]; [|reflexivity].
    eexists; eexists. split; [reflexivity|]. repeat split; auto; try discriminate; try apply keeps_refl.
Qed.
(** Vectors *)
Lemma copy_now E s : match s with SeeVal _ | SeeLoc (PField _ _) | SeeLoc (PReg _ _) => copy E s = match now E s with Some z => Some (SeeVal z) | None => None end | _ => True end.
Proof. destruct s; cbn; auto. destruct p; cbn; auto. all: unfold deref; match goal with |- context [match ?x with _ => _ end] => destruct x; reflexivity end. Qed.
Lemma sc_means_copy E ad p s : sc_means E ad p = Some s -> copy E s = match now E s with Some z => Some (SeeVal z) | None => None end.
Proof.
  assert (R : forall a i, reg_cell E a i = Some s -> exists q, s = SeeLoc (PReg a q)) by (intros a i; unfold reg_cell; destruct (e_reg E a i); [intros Q; injection Q as <-; eauto|discriminate]).
  assert (F : forall h f, field_cell E h f = Some s -> s = SeeLoc (PField h f)) by (intros h f; unfold field_cell; destruct (e_field E h f); [intros Q; injection Q as <-; eauto|discriminate]).
  intros H. pose proof (copy_now E s) as X. destruct p; cbn [sc_means] in H.
  - injection H as <-. exact X.
  - destruct (nth_error ad i); [|discriminate]. injection H as <-. exact X.
  - apply F in H. subst. exact X.
  - destruct (value E j) as [[]|]; try discriminate. injection H as <-. exact X.
  - destruct (value E j) as [[]|]; try discriminate. destruct (Z_lt_dec z 0); [discriminate|]. apply R in H. destruct H as [q ->]. exact X.
  - apply R in H. destruct H as [q ->]. exact X.
  - destruct (e_last E k) as [h|]; [|discriminate]. apply F in H. subst. exact X.
Qed.
Lemma vec_ok E old ad fn l cs : Forall sp_ok l -> Forall2 (sc_comp fn) l cs -> forall t, tgood t ->
  match vec_means E ad l with
  | Some v => exists l' t2, to_vec E old ad fn t cs = Some (l', t2) /\ copies E l' = Some v /\ length (dt t) <= length (dt t2) /\ (existsb is_expr cs = false -> keeps None t t2)
  | None => (q <- to_vec E old ad fn t cs ;; copies E (fst q)) = None
  end.
Proof.
  intros F C. revert F. induction C as [|p c l cs Cp C IH]; intros F t Tg; cbn [vec_means to_vec].
  { exists [], t. repeat split; auto. }
  inversion F as [|? ? F1 F2]; subst. pose proof (const_ok E old ad fn t p c F1 Cp Tg) as K. destruct (sc_means E ad p) as [s|] eqn:S; [|rewrite K; reflexivity].
  destruct K as (r & t1 & E1 & R1 & L1 & O1 & K1). rewrite E1. cbn [bind fst snd]. rewrite R1. cbn [bind].
  assert (T1 : tgood t1) by (unfold tgood in *; lia). specialize (IH F2 t1 T1). pose proof (sc_means_copy _ _ _ _ S) as Cp'.
  destruct (vec_means E ad l) as [v|].
  - destruct IH as (l' & t2 & E2 & R2 & L2 & K2). destruct (now E s) as [z|] eqn:N.
    + exists (s :: l'), t2. rewrite E2. cbn [bind fst snd copies]. rewrite Cp'. cbn [bind]. rewrite R2. cbn [bind]. split; [reflexivity|]. split; [reflexivity|]. split; [lia|].
      cbn [existsb]. intros X. apply orb_false_iff in X. destruct X as [X1 X2]. intros g i Hi Hw _ Hr.
      assert (W : woff MConst c = None) by (destruct c; cbn in *; congruence). rewrite W in K1.
      rewrite K2; auto; try discriminate; [apply K1; auto; discriminate|]. rewrite K1; auto. discriminate.
    + rewrite E2. cbn [bind fst snd copies]. rewrite Cp'. reflexivity.
  - destruct (to_vec E old ad fn t1 cs) as [[l' t2]|]; cbn [bind fst snd copies] in *; destruct (now E s); cbn [bind]; auto.
    + rewrite Cp'. cbn [bind]. rewrite IH. reflexivity.
    + rewrite Cp'. reflexivity.
Qed.
Lemma fields_ok fn l : forall cs, Forall2 (sc_comp fn) (fl l) cs -> to_fields cs = Some l.
Proof.
  induction l as [|[h f] l IH]; intros cs C; cbn in C; inversion C as [|? c ? cs' C1 C2]; subst; [reflexivity|].
  destruct c; cbn in C1; try contradiction. destruct C1 as [<- <-]. cbn [to_fields]. rewrite (IH _ C2). reflexivity.
Qed.
Lemma lval_refers E j : forall v, lval j -> has_ty j TData -> no_member j -> value E j = Some v -> exists q, refers E j = Some q.
Proof.
  induction j; intros w L T N V; cbn [lval] in L; try contradiction; cbn [refers value] in *; try (eexists; reflexivity).
  - destruct L as [L1 L2], N as (N1 & N2 & N3). inversion T; subst. destruct (value E j1) as [[| [] | | | |]|]; try discriminate; eauto.
  - destruct (value E j) as [[]|]; try discriminate. eauto.
  - destruct (value E j) as [[]|]; try discriminate. destruct (Z_lt_dec z 0); [discriminate|eauto].
  - destruct (e_last E k) as [h|]; [|discriminate]. cbn. eauto.
Qed.
Lemma arg_ok E old ad fn t m p c : param_ok m p -> comp fn p c -> a_gen fn = a_gen fn -> (forall g i, c = CStr g i -> g = a_gen fn) -> tgood t ->
  match means E ad m p with
  | Some s => exists r t2, to_arg E old ad fn t m c = Some (r, t2) /\ read t2 r = Some s /\ eff fn m c t r t2
  | None => to_arg E old ad fn t m c = None
  end.
Proof.
  intros Ok C _ St Tg.
  assert (EFF : forall s t', m <> MConst -> t' = t -> (forall g i, s <> RTemp g i) -> eff fn m c t s t').
  { intros s t' Hm -> Hs. assert (W : woff m c = None) by (destruct m; try reflexivity; congruence). split; [lia|]. rewrite W. split; [exact Hs|]. intros _. apply keeps_refl. }
  destruct m, p as [p|o|j|s|l|l]; cbn [param_ok] in Ok; try contradiction; cbn [means comp] in *.
  - cbn [to_arg]. pose proof (const_ok E old ad fn t p c Ok C Tg) as K. destruct (sc_means E ad p); [|exact K].
    destruct K as (r & t2 & K1 & K2 & K3 & K4 & K5). exists r, t2. split; [exact K1|]. split; [exact K2|]. split; [exact K3|]. split; [exact K4|]. intros _. exact K5.
  - destruct Ok as [Ok L]. destruct p, c; try contradiction; cbn [sc_comp sp_ok ref_means sc_means to_arg] in *.
    + destruct C as [-> ->]. unfold field_cell, field_at. destruct (e_field E h0 f0); cbn [bind]; [|reflexivity]. eexists; eexists. split; [reflexivity|]. split; [reflexivity|]. apply EFF; congruence.
    + destruct C as [C _]. destruct Ok as [T N]. destruct (C36_expressions j TData T N) as (x' & C' & A). rewrite C in C'. injection C' as <-. destruct (A E old) as (_ & A2 & A3).
      destruct (value E j) as [v|] eqn:V; [|rewrite A3; reflexivity]. destruct (lval_refers _ _ _ L T N V) as [q Q]. rewrite Q, (A2 q); auto; try discriminate. cbn [bind].
      eexists; eexists. split; [reflexivity|]. split; [reflexivity|]. apply EFF; congruence.
    + destruct C as [-> C]. destruct Ok as [T N]. rewrite (arith_value E old j x T N C). destruct (value E j) as [v|] eqn:V; [|reflexivity].
      destruct (value_data _ _ _ T N V) as [z ->]. cbn [bind]. rewrite get_size_spec. destruct (Z_lt_dec z 0); cbn [bind]; [reflexivity|].
      rewrite <- reg_at_cell. destruct (reg_at E a0 (z mod 2 ^ 64)%Z) as [q|]; cbn [bind]; [|reflexivity].
      eexists; eexists. split; [reflexivity|]. split; [reflexivity|]. apply EFF; congruence.
    + destruct C as [-> ->]. rewrite <- reg_at_cell. destruct (reg_at E a0 (Z.of_nat i0)); cbn [bind]; [|reflexivity]. eexists; eexists. split; [reflexivity|]. split; [reflexivity|]. apply EFF; congruence.
    + destruct C as [-> ->]. unfold last_field, field_cell. destruct (e_last E k0) as [h|]; cbn [bind]; [|reflexivity]. destruct (e_field E h f0); cbn [bind]; [|reflexivity].
      eexists; eexists. split; [reflexivity|]. split; [reflexivity|]. apply EFF; congruence.
  - destruct c; try contradiction. subst. cbn [to_arg]. eexists; eexists. split; [reflexivity|]. split; [reflexivity|]. apply EFF; congruence.
  - destruct c; try contradiction. subst. cbn [to_arg]. eexists; eexists. split; [reflexivity|]. split; [reflexivity|]. apply EFF; congruence.
  - destruct c; try contradiction. cbn [to_arg]. destruct Ok as [T N]. destruct (C36_expressions j THeader T N) as (x' & C' & A). rewrite C in C'. injection C' as <-. destruct (A E old) as (A1 & _).
    destruct (value E j) as [v|]; [|cbn [answers] in A1; rewrite A1; reflexivity]. destruct v; cbn [answers] in A1; try contradiction. rewrite A1. cbn [bind].
    eexists; eexists. split; [reflexivity|]. split; [reflexivity|]. apply EFF; congruence.
  - destruct c; try contradiction. cbn [to_arg]. rewrite (St _ _ eq_refl), Nat.eqb_refl, C. cbn [bind]. eexists; eexists. split; [reflexivity|]. split; [reflexivity|]. apply EFF; congruence.
  - destruct c; try contradiction. cbn [to_arg]. destruct C as (cs & Sl & F). rewrite Sl. cbn [bind]. pose proof (vec_ok E old ad fn l cs Ok F t Tg) as K. destruct (vec_means E ad l) as [v|].
    + destruct K as (l' & t2 & K1 & K2 & K3 & K4). rewrite K1. cbn [bind fst snd]. rewrite K2. cbn [bind]. eexists; eexists. split; [reflexivity|]. split; [reflexivity|].
      split; [exact K3|]. split; [cbn; discriminate|]. cbn [vecx woff]. rewrite Sl. exact K4.
    + destruct (to_vec E old ad fn t cs) as [[l' t2]|]; cbn [bind fst snd] in *; [rewrite K|]; reflexivity.
  - destruct c; try contradiction. cbn [to_arg]. destruct C as (cs & Sl & F). rewrite Sl. cbn [bind]. rewrite (fields_ok _ _ _ F). cbn [bind].
    eexists; eexists. split; [reflexivity|]. split; [reflexivity|]. apply EFF; congruence.
Qed.
