(** Building an action: what ends up in the parameter list. *)
From Coq Require Import List Arith ZArith Lia Bool.
From Verif Require Import Base PhvModel ExprModel ExprSpec ExprProps ActionModel ActionSpec.
Import ListNotations.

Definition sc_comp (a : afn) (p : sparam) (c : cparam) : Prop :=
  match p, c with
  | SC z, CConst off => nth_error (a_consts a) off = Some z
  | SD i, CData i' => i = i'
  | SF h f, CField h' f' => h = h' /\ f = f'
  | SX j, CExpr off x => compile false j = Some x /\ 1 <= off
  | SRG r j, CRegGen r' x => r = r' /\ compile false j = Some x
  | SR r i, CReg r' i' => r = r' /\ i = i'
  | SSF k f, CStackField k' f' => k = k' /\ f = f'
  | _, _ => False
  end.
Definition fl (l : list (nat * nat)) : list sparam := map (fun hf => SF (fst hf) (snd hf)) l.
Definition comp (a : afn) (p : jparam) (c : cparam) : Prop :=
  match p, c with
  | JS p, _ => sc_comp a p c
  | JO o, CObj o' => o = o'
  | JHX j, CHX x => compile false j = Some x
  | JStr s, CStr _ i => nth_error (a_strs a) i = Some s
  | JV l, CVec s e => exists cs, slice (a_subs a) s e = Some cs /\ Forall2 (sc_comp a) l cs
  | JFL l, CFL s e => exists cs, slice (a_subs a) s e = Some cs /\ Forall2 (sc_comp a) (fl l) cs
  | _, _ => False
  end.
Definition count (l : list cparam) : nat := length (filter is_expr l).
Definition numbered (l : list cparam) : Prop := forall A off x C, l = A ++ CExpr off x :: C -> off = 1 + count A.
Lemma count_app l m : count (l ++ m) = count l + count m.
Proof. unfold count. rewrite filter_app, app_length. reflexivity. Qed.

Definition prefix {A} (l m : list A) : Prop := exists k, m = l ++ k.
Lemma prefix_refl {A} (l : list A) : prefix l l. Proof. exists []. now rewrite app_nil_r. Qed.
Lemma prefix_app {A} (l k : list A) : prefix l (l ++ k). Proof. exists k. reflexivity. Qed.
Lemma prefix_trans {A} (l m n : list A) : prefix l m -> prefix m n -> prefix l n.
Proof. intros [k ->] [k' ->]. exists (k ++ k'). now rewrite app_assoc. Qed.
Lemma prefix_nth {A} (l m : list A) i x : prefix l m -> nth_error l i = Some x -> nth_error m i = Some x.
Proof. intros [k ->] H. rewrite nth_error_app1; [exact H|]. apply nth_error_Some. congruence. Qed.
Lemma prefix_slice {A} (l m : list A) s e x : prefix l m -> slice l s e = Some x -> slice m s e = Some x.
Proof.
  intros [k ->] H. unfold slice in *. destruct (s <=? e) eqn:Q1, (e <=? length l) eqn:Q2; cbn [andb] in *; try discriminate. injection H as <-.
  apply Nat.leb_le in Q1, Q2. rewrite app_length, (proj2 (Nat.leb_le _ _)) by lia. cbn [andb]. f_equal. rewrite skipn_app, firstn_app.
  replace (e - s - length (skipn s l)) with 0 by (rewrite skipn_length; lia). cbn. now rewrite app_nil_r.
Qed.
Definition grows (a a' : afn) : Prop := prefix (a_consts a) (a_consts a') /\ prefix (a_strs a) (a_strs a') /\ prefix (a_subs a) (a_subs a').
Lemma sc_comp_mono a a' p c : prefix (a_consts a) (a_consts a') -> sc_comp a p c -> sc_comp a' p c.
Proof. intros G. destruct p, c; cbn; auto. intros H. exact (prefix_nth _ _ _ _ G H). Qed.
Lemma Forall2_impl {A B} (P Q : A -> B -> Prop) l m : (forall x y, P x y -> Q x y) -> Forall2 P l m -> Forall2 Q l m.
Proof. intros H. induction 1; constructor; auto. Qed.
Lemma comp_mono a a' p c : grows a a' -> comp a p c -> comp a' p c.
Proof.
  intros (G1 & G2 & G3). destruct p, c; cbn; auto; try (apply sc_comp_mono; exact G1).
  - intros H. exact (prefix_nth _ _ _ _ G2 H).
  - intros (cs & S & F). exists cs. split; [exact (prefix_slice _ _ _ _ _ G3 S)|]. eapply Forall2_impl; [|exact F]. intros. eapply sc_comp_mono; eauto.
  - intros (cs & S & F). exists cs. split; [exact (prefix_slice _ _ _ _ _ G3 S)|]. eapply Forall2_impl; [|exact F]. intros. eapply sc_comp_mono; eauto.
Qed.

(** Strings *)
Definition regen (g : nat) (c : cparam) : cparam := match c with CStr _ i => CStr g i | _ => c end.
Lemma restring_fix g g' l : forall k, fst (restring g k l) = l -> fst (restring g' k l) = map (regen g') l /\ snd (restring g' k l) = snd (restring g k l).
Proof.
  induction l as [|p l IH]; intros k H; [split; reflexivity|].
  destruct p; cbn [restring fst snd map regen] in *; injection H; intros; try (destruct (IH k) as [E1 E2]; [assumption|]; rewrite E1, E2; split; reflexivity).
  subst. edestruct IH as [E1 E2]; [eassumption|]. rewrite E1, E2. split; reflexivity.
Qed.
Lemma restring_app g l : forall k m, restring g k (l ++ m) = (fst (restring g k l) ++ fst (restring g (snd (restring g k l)) m), snd (restring g (snd (restring g k l)) m)).
Proof.
  induction l as [|p l IH]; intros k m; cbn [app restring fst snd]; [destruct (restring g k m); reflexivity|].
  destruct p; cbn [app restring fst snd]; rewrite IH; reflexivity.
Qed.
Lemma restring_regen g l : forall k, fst (restring g k l) = l -> map (regen g) l = l.
Proof.
  induction l as [|p l IH]; intros k H; [reflexivity|].
  destruct p; cbn [restring fst snd map regen] in *; injection H; intros; subst; f_equal; eauto.
Qed.
Lemma regen_comp a g p c : comp a p c -> comp a p (regen g c).
Proof. destruct c; cbn [regen]; auto. Qed.
Lemma count_regen g l : count (map (regen g) l) = count l.
Proof. unfold count. induction l as [|p l IH]; [reflexivity|]. destruct p; cbn [map regen filter is_expr length]; auto. Qed.
Lemma numbered_regen g l : numbered l -> numbered (map (regen g) l).
Proof.
  intros N A off x C E. apply map_eq_app in E. destruct E as (A' & R & -> & EA & ER).
  destruct R as [|c C']; [discriminate|]. cbn [map] in ER. injection ER as Ec _. destruct c; cbn in Ec; try discriminate. injection Ec as -> ->.
  rewrite <- EA, count_regen. exact (N _ _ _ _ eq_refl).
Qed.
Lemma numbered_snoc l c : numbered l -> (forall off x, c = CExpr off x -> off = 1 + count l) -> numbered (l ++ [c]).
Proof.
  intros N H A off x C E. destruct C as [|d C _] using rev_ind.
  - apply app_inj_tail in E. destruct E as [-> ->]. exact (H _ _ eq_refl).
  - rewrite app_comm_cons, app_assoc in E. apply app_inj_tail in E. destruct E as [E _]. exact (N _ _ _ _ E).
Qed.

(** The parameters pushed by scalars *)
Lemma push_scalar_ok a n p : sp_ok p -> 1 + count (a_params a) <= n -> numbered (a_params a) ->
  exists a' n' c, push_scalar a n p = Some (a', n') /\ n <= n' /\ 1 + count (a_params a') <= n' /\ numbered (a_params a') /\
    a_params a' = a_params a ++ [c] /\ sc_comp a' p c /\ (forall g, regen g c = c) /\ is_expr c = is_sx p /\
    a_subs a' = a_subs a /\ prefix (a_consts a) (a_consts a') /\ a_strs a' = a_strs a /\ a_gen a' = a_gen a /\ a_calls a' = a_calls a.
Proof.
  intros Ok Cn Nm.
  assert (SN : forall c, is_expr c = false -> 1 + count (a_params a ++ [c]) <= n /\ numbered (a_params a ++ [c])).
  { intros c Hc. split; [rewrite count_app; unfold count at 2; cbn [filter]; rewrite Hc; cbn; lia|]. apply numbered_snoc; [exact Nm|]. intros off x ->. discriminate. }
  destruct p; cbn [push_scalar sp_ok bind] in *.
  - eexists; eexists; eexists. split; [reflexivity|]. cbn [a_params a_subs a_consts a_strs a_gen a_calls].
    split; [lia|]. split; [apply SN; reflexivity|]. split; [apply SN; reflexivity|]. split; [reflexivity|].
    split; [cbn; rewrite nth_error_app2, Nat.sub_diag by lia; reflexivity|]. repeat split; auto. apply prefix_app.
  - eexists; eexists; eexists. split; [reflexivity|]. cbn. split; [lia|]. split; [apply SN; reflexivity|]. split; [apply SN; reflexivity|]. split; [reflexivity|]. repeat split; auto. apply prefix_refl.
  - eexists; eexists; eexists. split; [reflexivity|]. cbn. split; [lia|]. split; [apply SN; reflexivity|]. split; [apply SN; reflexivity|]. split; [reflexivity|]. repeat split; auto. apply prefix_refl.
  - destruct Ok as [T M]. destruct (C36_expressions j TData T M) as (x & C & _). rewrite C. cbn [bind].
    fold (count (a_params a)). rewrite (proj2 (Nat.leb_le _ _)) by lia.
    eexists; eexists; exists (CExpr (1 + count (a_params a)) x). split; [reflexivity|]. cbn [add_param set_params a_params a_subs a_consts a_strs a_gen a_calls].
    destruct (_ =? n) eqn:Q; [apply Nat.eqb_eq in Q|apply Nat.eqb_neq in Q].
    all: split; [lia|]; split; [rewrite count_app; unfold count at 2; cbn [filter is_expr length]; lia|];
      split; [apply numbered_snoc; [exact Nm|]; intros off y E; injection E as <- _; reflexivity|]; split; [reflexivity|]; cbn [sc_comp]; repeat split; auto; try lia; apply prefix_refl.
  - destruct Ok as [T M]. destruct (C36_expressions j TData T M) as (x & C & _). rewrite C. cbn [bind].
    eexists; eexists; eexists. split; [reflexivity|]. cbn. split; [lia|]. split; [apply SN; reflexivity|]. split; [apply SN; reflexivity|]. split; [reflexivity|]. repeat split; auto. apply prefix_refl.
  - eexists; eexists; eexists. split; [reflexivity|]. cbn. split; [lia|]. split; [apply SN; reflexivity|]. split; [apply SN; reflexivity|]. split; [reflexivity|]. repeat split; auto. apply prefix_refl.
  - eexists; eexists; eexists. split; [reflexivity|]. cbn. split; [lia|]. split; [apply SN; reflexivity|]. split; [apply SN; reflexivity|]. split; [reflexivity|]. repeat split; auto. apply prefix_refl.
Qed.
Lemma push_scalars_ok l : forall a n, Forall sp_ok l -> 1 + count (a_params a) <= n -> numbered (a_params a) ->
  exists a' n' cs, push_scalars a n l = Some (a', n') /\ n <= n' /\ 1 + count (a_params a') <= n' /\ numbered (a_params a') /\
    a_params a' = a_params a ++ cs /\ Forall2 (sc_comp a') l cs /\
    a_subs a' = a_subs a /\ prefix (a_consts a) (a_consts a') /\ a_strs a' = a_strs a /\ a_gen a' = a_gen a /\ a_calls a' = a_calls a.
Proof.
  induction l as [|p l IH]; intros a n F Cn Nm; cbn [push_scalars].
  { exists a, n, []. repeat split; auto. now rewrite app_nil_r. apply prefix_refl. }
  inversion F; subst. destruct (push_scalar_ok a n p) as (a1 & n1 & c & E1 & L1 & C1 & N1 & P1 & S1 & _ & _ & B1 & K1 & T1 & G1 & D1); auto.
  rewrite E1. cbn [bind fst snd]. destruct (IH a1 n1) as (a2 & n2 & cs & E2 & L2 & C2 & N2 & P2 & S2 & B2 & K2 & T2 & G2 & D2); auto.
  exists a2, n2, (c :: cs). rewrite E2. split; [reflexivity|]. split; [lia|]. split; [exact C2|]. split; [exact N2|]. split; [rewrite P2, P1, <- app_assoc; reflexivity|].
  split; [constructor; [exact (sc_comp_mono _ _ _ _ K2 S1)|exact S2]|]. split; [congruence|]. split; [eapply prefix_trans; eauto|]. repeat split; congruence.
Qed.
Lemma set_end_cons c l e : l <> [] -> set_end (c :: l) e = (r' <- set_end l e ;; Some (c :: r')).
Proof. destruct l as [|d l]; [congruence|]. intros _. destruct c; reflexivity. Qed.
Lemma set_end_last l s e e' : set_end (l ++ [CVec s e]) e' = Some (l ++ [CVec s e']) /\ set_end (l ++ [CFL s e]) e' = Some (l ++ [CFL s e']).
Proof.
  induction l as [|c l [IH1 IH2]]; [split; reflexivity|]. cbn [app].
  split; rewrite set_end_cons by (destruct l; discriminate); [rewrite IH1|rewrite IH2]; reflexivity.
Qed.

(** The state between two parameters *)
Record binv (a : afn) (n : nat) : Prop := {
  b_n1 : 1 + count (a_params a) <= n; b_n2 : 1 + count (a_subs a) <= n;
  b_num1 : numbered (a_params a); b_num2 : numbered (a_subs a);
  b_str : restring (a_gen a) 0 (a_params a) = (a_params a, length (a_strs a)) }.
(** One parameter.  The parameters already there keep their meaning; the strings may have moved. *)
Definition pok (p : jparam) : Prop :=
  match p with JS p => sp_ok p | JHX j => has_ty j THeader /\ no_member j | JV l => Forall sp_ok l | _ => True end.
Definition cstr (c : cparam) : bool := match c with CStr _ _ => true | _ => false end.
Lemma restring_snoc g l c m : restring g 0 l = (l, m) -> cstr c = false -> restring g 0 (l ++ [c]) = (l ++ [c], m).
Proof. intros E H. rewrite restring_app, E. cbn [fst snd]. destruct c; cbn in *; try reflexivity; discriminate. Qed.
Lemma numbered_nonexpr l c : numbered l -> is_expr c = false -> numbered (l ++ [c]).
Proof. intros N H. apply numbered_snoc; [exact N|]. intros off x ->. discriminate. Qed.
Lemma count_nonexpr l c : is_expr c = false -> count (l ++ [c]) = count l.
Proof. intros H. rewrite count_app. unfold count at 2. cbn [filter]. rewrite H. cbn. lia. Qed.
Lemma push_param_ok a n p : pok p -> binv a n ->
  exists a' n' c g, push_param a n p = Some (a', n') /\ n <= n' /\ binv a' n' /\ a_params a' = map (regen g) (a_params a) ++ [c] /\
    comp a' p c /\ is_expr c = is_ex p /\ grows a a' /\ a_calls a' = a_calls a.
Proof.
  intros Ok [n1 n2 m1 m2 st].
  assert (RG : map (regen (a_gen a)) (a_params a) = a_params a) by (eapply restring_regen; rewrite st; reflexivity).
  assert (SIMPLE : forall c, is_expr c = false -> cstr c = false -> binv (add_param a c) n).
  { intros c H1 H2. constructor; cbn [add_param set_params a_params a_subs a_gen a_strs]; auto.
    - rewrite count_nonexpr by exact H1. exact n1.
    - apply numbered_nonexpr; assumption.
    - apply restring_snoc; assumption. }
  assert (GR : forall c, grows a (add_param a c)) by (intros; repeat split; apply prefix_refl).
  destruct p as [p|o|j|s|l|l]; cbn [push_param pok bind] in *.
  - destruct (push_scalar_ok a n p Ok n1 m1) as (a1 & k1 & c & E1 & L1 & C1 & N1 & P1 & S1 & R1 & X1 & B1 & K1 & T1 & G1 & D1).
    exists a1, k1, c, (a_gen a). rewrite RG. split; [exact E1|]. split; [exact L1|]. split.
    { constructor; auto. rewrite B1. lia. rewrite B1; auto. rewrite P1, G1, T1. apply restring_snoc; [exact st|].
      destruct c; try reflexivity. specialize (R1 (S gen)). cbn in R1. injection R1. lia. }
    split; [exact P1|]. split; [exact S1|]. split; [destruct p; exact X1|]. split; [|exact D1]. split; [exact K1|]. rewrite T1, B1. split; apply prefix_refl.
  - exists (add_param a (CObj o)), n, (CObj o), (a_gen a). rewrite RG. split; [reflexivity|]. split; [lia|]. split; [apply SIMPLE; reflexivity|]. split; [reflexivity|]. split; [reflexivity|].
    split; [reflexivity|]. split; [apply GR|reflexivity].
  - destruct Ok as [T M]. destruct (C36_expressions j THeader T M) as (x & C & _). rewrite C. cbn [bind].
    exists (add_param a (CHX x)), n, (CHX x), (a_gen a). rewrite RG. split; [reflexivity|]. split; [lia|]. split; [apply SIMPLE; reflexivity|]. split; [reflexivity|]. split; [exact C|].
    split; [reflexivity|]. split; [apply GR|reflexivity].
  - unfold push_string. destruct (restring_fix (a_gen a) (S (a_gen a)) (a_params a) 0) as [F1 F2]; [rewrite st; reflexivity|].
    rewrite F1, F2, st. cbn [snd]. rewrite Nat.eqb_refl. cbn [bind].
    eexists; eexists; exists (CStr (S (a_gen a)) (length (a_strs a))), (S (a_gen a)). split; [reflexivity|]. cbn [a_params a_subs a_gen a_strs a_calls]. split; [lia|]. split.
    { constructor; cbn [a_params a_subs a_gen a_strs a_calls]; auto.
      - rewrite count_nonexpr, count_regen by reflexivity. exact n1.
      - apply numbered_nonexpr; [|reflexivity]. apply numbered_regen. exact m1.
      - rewrite restring_app.
        assert (Q : restring (S (a_gen a)) 0 (map (regen (S (a_gen a))) (a_params a)) = (map (regen (S (a_gen a))) (a_params a), length (a_strs a))).
        { assert (E2 : fst (restring (S (a_gen a)) 0 (map (regen (S (a_gen a))) (a_params a))) = map (regen (S (a_gen a))) (a_params a) /\
                   snd (restring (S (a_gen a)) 0 (map (regen (S (a_gen a))) (a_params a))) = snd (restring (a_gen a) 0 (a_params a))).
          { assert (st' : fst (restring (a_gen a) 0 (a_params a)) = a_params a) by (rewrite st; reflexivity). revert st'. generalize 0 at 1 2 3 4.
            generalize (a_params a). intros l. induction l as [|c l IH]; intros k H; [split; reflexivity|].
            destruct c; cbn [restring fst snd map regen] in *; injection H; intros; try (destruct (IH k) as [E1 E2]; [assumption|]; rewrite E1, E2; split; reflexivity).
            subst. edestruct IH as [E1 E2]; [eassumption|]. rewrite E1, E2. split; reflexivity. }
          destruct E2 as [E2 E3]. rewrite (surjective_pairing (restring _ _ (map _ _))), E2, E3, st. reflexivity. }
        rewrite Q. cbn. rewrite app_length. cbn. do 2 f_equal. lia. }
    split; [reflexivity|]. split; [cbn; rewrite nth_error_app2, Nat.sub_diag by lia; reflexivity|]. split; [reflexivity|]. split; [|reflexivity].
    split; [apply prefix_refl|]. split; [apply prefix_app|apply prefix_refl].
  - set (st0 := length (a_subs a)). set (a0 := swap (add_param a (CVec st0 st0))).
    destruct (push_scalars_ok l a0 n Ok) as (a1 & k1 & cs & E1 & L1 & C1 & N1 & P1 & S1 & B1 & K1 & T1 & G1 & D1); auto.
    rewrite E1. cbn [bind fst snd]. unfold end_vector. cbn [swap a_params a_subs]. rewrite B1. cbn [a0 swap add_param set_params a_params a_subs].
    rewrite (proj1 (set_end_last _ _ _ _)). cbn [bind].
    eexists; eexists; exists (CVec st0 (length (a_params a1))), (a_gen a). rewrite RG. split; [reflexivity|]. cbn [swap set_params a_params a_subs a_gen a_strs a_calls a_consts]. split; [exact L1|].
    cbn [a0 swap add_param set_params a_params a_subs a_gen a_strs a_calls a_consts] in *. split.
    { constructor; cbn [set_params swap a_params a_subs a_gen a_strs a_calls a_consts]; auto.
      - rewrite count_nonexpr by reflexivity. lia.
      - apply numbered_nonexpr; [exact m1|reflexivity].
      - rewrite G1, T1. apply restring_snoc; [exact st|reflexivity]. }
    split; [reflexivity|]. split.
    { cbn. exists cs. split; [|exact S1]. unfold slice. rewrite P1, app_length. fold st0. rewrite (proj2 (Nat.leb_le _ _)) by lia. rewrite Nat.leb_refl. cbn [andb]. f_equal.
      unfold st0. rewrite skipn_app, skipn_all, Nat.sub_diag. cbn [skipn app]. replace (length (a_subs a) + length cs - length (a_subs a)) with (length cs) by lia. apply firstn_all. }
    split; [reflexivity|]. split; [|exact D1]. split; [exact K1|]. cbn [set_params swap a_strs a_subs]. rewrite T1, P1. split; [apply prefix_refl|apply prefix_app].
  - set (st0 := length (a_subs a)). set (a0 := swap (add_param a (CFL st0 st0))). fold (fl l).
    destruct (push_scalars_ok (fl l) a0 n) as (a1 & k1 & cs & E1 & L1 & C1 & N1 & P1 & S1 & B1 & K1 & T1 & G1 & D1); auto.
    { apply Forall_forall. intros p Hp. apply in_map_iff in Hp. destruct Hp as (x & <- & _). exact I. }
    rewrite E1. cbn [bind fst snd]. unfold end_vector. cbn [swap a_params a_subs]. rewrite B1. cbn [a0 swap add_param set_params a_params a_subs].
    rewrite (proj2 (set_end_last _ _ _ _)). cbn [bind].
    eexists; eexists; exists (CFL st0 (length (a_params a1))), (a_gen a). rewrite RG. split; [reflexivity|]. cbn [swap set_params a_params a_subs a_gen a_strs a_calls a_consts]. split; [exact L1|].
    cbn [a0 swap add_param set_params a_params a_subs a_gen a_strs a_calls a_consts] in *. split.
    { constructor; cbn [set_params swap a_params a_subs a_gen a_strs a_calls a_consts]; auto.
      - rewrite count_nonexpr by reflexivity. lia.
      - apply numbered_nonexpr; [exact m1|reflexivity].
      - rewrite G1, T1. apply restring_snoc; [exact st|reflexivity]. }
    split; [reflexivity|]. split.
    { cbn. exists cs. split; [|exact S1]. unfold slice. rewrite P1, app_length. fold st0. rewrite (proj2 (Nat.leb_le _ _)) by lia. rewrite Nat.leb_refl. cbn [andb]. f_equal.
      unfold st0. rewrite skipn_app, skipn_all, Nat.sub_diag. cbn [skipn app]. replace (length (a_subs a) + length cs - length (a_subs a)) with (length cs) by lia. apply firstn_all. }
    split; [reflexivity|]. split; [|exact D1]. split; [exact K1|]. cbn [set_params swap a_strs a_subs]. rewrite T1, P1. split; [apply prefix_refl|apply prefix_app].
Qed.
