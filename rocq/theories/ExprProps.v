(** C36: what the flattened instructions compute. *)
From Coq Require Import List Arith ZArith Lia Bool.
From Verif Require Import Base DataModel PhvModel PhvSpec PhvProofs PhvProps ExprModel ExprSpec ExprProofs.
Import ListNotations.

(** The evaluation functions give [r] on expression [x] of type [t].  [None]: the evaluation fails (throws, or is undefined) like the tree. *)
Definition answers (E : env) (x : built) (old : list Z) (t : ty) (r : option val) : Prop :=
  match t, r with
  | TData, Some (VD z) => eval_arith E x old = Some z
  | TBool, Some (VB b) => eval_bool E x old = Some b
  | THeader, Some (VH h) => eval_header E x old = Some h
  | TStack, Some (VS k) => eval_stack E x old = Some (SHdr k)
  | TUStack, Some (VUS k) => eval_stack E x old = Some (SUn k)
  | TUnion, Some (VU u) => eval_union E x old = Some u
  | TData, None => eval_arith E x old = None
  | TBool, None => eval_bool E x old = None
  | THeader, None => eval_header E x old = None
  | TStack, None | TUStack, None => eval_stack E x old = None
  | TUnion, None => eval_union E x old = None
  | _, _ => False
  end.
Lemma evaluates api j t : has_ty j t -> api = true \/ no_member j ->
  exists x, compile api j = Some x /\ forall E old, answers E x old t (value E j) /\
    (forall q, t = TData -> value E j <> None -> refers E j = Some q -> eval_lvalue E x old = Some q) /\ (t = TData -> value E j = None -> eval_lvalue E x old = None).
Proof.
  intros T G. destruct (emits_ex api j t T G) as (f & ks & Em). destruct (compiled _ _ _ _ _ Em 0 [] 0) as (p & ext & cnt & A & Lp & _ & _ & _ & D).
  exists (p, ks, cnt). split.
  { unfold compile. rewrite (emits_build _ _ _ _ _ Em). cbn [bind fst snd app length]. unfold finish. cbn [fst snd]. cbn [sum] in A. rewrite A. reflexivity. }
  intros E old. destruct (D E ks) as [Ty Do]; [intros i z Hi; exact Hi|]. specialize (Do (prepare old cnt)).
  assert (L : cnt <= length (m_t (prepare old cnt))) by (cbn; rewrite app_length, repeat_length; lia). specialize (Do L).
  assert (NE : p <> []).
  { intros ->. cbn in Lp. assert (X : forall k, f k <> []) by (clear - Em; intros k; destruct Em; cbn [app]; try discriminate; intros C; apply app_eq_nil in C; destruct C as [_ C]; try discriminate; apply app_eq_nil in C; destruct C as [_ C]; discriminate).
    specialize (X 0). destruct (f 0); [congruence|discriminate]. }
  assert (EB : forall A (a : A) b, match p with [] => a | _ => b end = b) by (destruct p; [congruence|reflexivity]).
  destruct (value E j) as [v|] eqn:V.
  - specialize (Ty v eq_refl). destruct Do as (s' & (t' & _ & _ & M) & X). specialize (X []). rewrite app_nil_r in X. cbn [exec] in X.
    assert (R : run_built E (p, ks, cnt) old = Some s') by exact X. split.
    + destruct v; cbn in Ty; subst t; cbn [answers];
      unfold eval_arith, eval_bool, eval_header, eval_stack, eval_union; cbn [fst snd]; rewrite ?EB, R; cbn [bind]; [|rewrite M; reflexivity..].
      destruct M as (q & -> & De & _). cbn. exact De.
    + split; [|intros; congruence]. intros q -> _ Rq. destruct v; try discriminate Ty. destruct M as (q' & -> & De & _ & Q). unfold eval_lvalue. rewrite R. cbn. f_equal. apply Q. exact Rq.
  - specialize (Do []). rewrite app_nil_r in Do. assert (R : run_built E (p, ks, cnt) old = None) by exact Do.
    assert (LV : eval_lvalue E (p, ks, cnt) old = None) by (unfold eval_lvalue; rewrite R; reflexivity).
    split; [|split; [congruence|intros _ _; exact LV]].
    assert (NU : t <> TUnknown) by (clear - T; intros ->; remember TUnknown as u; induction T; try discriminate; [auto|destruct o; cbn in H; try discriminate; congruence..]).
    destruct t; try congruence; cbn [answers]; unfold eval_arith, eval_bool, eval_header, eval_stack, eval_union; cbn [fst snd]; rewrite ?EB, R; reflexivity.
Qed.

(** Every well-typed tree of the JSON input, in every environment and whatever the temporaries of the thread held before, evaluates to the value of the tree;
    an expression that can be assigned to evaluates to a reference to what it names. *)
Theorem C36_expressions : forall j t, has_ty j t -> no_member j ->
  exists x, compile false j = Some x /\ forall E old, answers E x old t (value E j) /\
    (forall q, t = TData -> value E j <> None -> refers E j = Some q -> eval_lvalue E x old = Some q) /\ (t = TData -> value E j = None -> eval_lvalue E x old = None).
Proof. intros j t T N. apply evaluates; auto. Qed.
(** The same for expressions built through the class, members of unions included *)
Theorem C36_built_by_api : forall j t, has_ty j t ->
  exists x, compile true j = Some x /\ forall E old, answers E x old t (value E j) /\
    (forall q, t = TData -> value E j <> None -> refers E j = Some q -> eval_lvalue E x old = Some q) /\ (t = TData -> value E j = None -> eval_lvalue E x old = None).
Proof. intros j t T. apply evaluates; auto. Qed.
(** The empty expression is false, and 0 *)
Theorem C36_empty : forall api E old, exists x, compile api JNull = Some x /\ eval_bool E x old = Some false /\ eval_arith E x old = Some 0%Z.
Proof. intros. eexists. split; [reflexivity|]. split; reflexivity. Qed.
(** The length expression of a variable-length header, resolved for a header, reads the fields of that header where the source expression reads parameters *)
Theorem C36_resolved : forall j t h, has_ty j t -> no_member j ->
  exists x, compile false j = Some x /\ forall E old, answers E (resolve h x) old t (value (with_locals E (e_field E h)) j).
Proof.
  intros j t h T N. destruct (C36_expressions _ _ (subst_ty h j t T) (subst_no_member h j N)) as (x' & C' & A). rewrite compile_subst in C'.
  destruct (compile false j) as [x|]; [|discriminate]. injection C' as <-. exists x. split; [reflexivity|]. intros E old. rewrite <- value_subst. apply A.
Qed.

(** ** Packets *)
Lemma zs_eqb_eq a b : zs_eqb a b = true <-> a = b.
Proof.
  revert b. induction a as [|x a IH]; intros [|y b]; cbn; split; intros Q; try discriminate; auto.
  - apply andb_true_iff in Q. destruct Q as [Q1 Q2]. apply Z.eqb_eq in Q1. apply IH in Q2. congruence.
  - injection Q as -> ->. rewrite Z.eqb_refl. apply IH. reflexivity.
Qed.
(** Two headers compare equal when they have the same type, both are valid and the fields have the same values *)
Theorem C36_header_equality : forall legacy d s rz locals regs a b ta tb x y old, wf d -> reach_ag legacy d s ->
  nth_error (ds_h d) a = Some ta -> nth_error (ds_h d) b = Some tb -> hd_meta ta = false -> hd_meta tb = false -> header s a = Some x -> header s b = Some y ->
  exists e r, compile false (JEq false (JHeader a) (JHeader b)) = Some e /\ eval_bool (phv_env rz d s locals regs) e old = Some r /\
    (r = true <-> hd_ty ta = hd_ty tb /\ d_valid x = true /\ d_valid y = true /\ map snd (d_fields x) = map snd (d_fields y)).
Proof.
  intros legacy d s rz locals regs a b ta tb x y old W R Ta Tb Ma Mb Xa Xb. pose proof (reach_ag_INV _ _ _ W R) as I.
  assert (T : has_ty (JEq false (JHeader a) (JHeader b)) TBool) by (apply t_eq with (t := THeader); [cbn; auto|constructor|constructor]).
  destruct (C36_expressions _ _ T) as (e & C & A); [cbn; auto|]. exists e. destruct (A (phv_env rz d s locals regs) old) as [An _]. clear A.
  cbn [value bind sem_eq sem_bin phv_env e_cmp] in An. unfold hdr_cmp in An. unfold header in Xa, Xb. rewrite Ta, Tb, Xa, Xb in An. cbn [bind answers] in An.
  eexists. split; [exact C|]. split; [exact An|]. clear An.
  assert (Va : d_vf x = d_valid x) by (refine (i_ag _ _ _ I eq_refl a x _ Xa); intros (t & Q & M); congruence).
  assert (Vb : d_vf y = d_valid y) by (refine (i_ag _ _ _ I eq_refl b y _ Xb); intros (t & Q & M); congruence).
  unfold is_valid. rewrite Ma, Mb, Va, Vb. cbn [orb]. rewrite !andb_true_iff, Nat.eqb_eq, zs_eqb_eq. split.
  - intros [[[? ?] ?] [? ?]]. auto.
  - intros (? & Hx & Hy & ?). rewrite Hx, Hy. auto.
Qed.
(** Finding: P4-16 says that two invalid headers are equal (8.17); here they are not. *)
Theorem C36_invalid_headers_equal_refuted :
  ~ (forall legacy d s a b ta tb x y old e, wf d -> reach_ag legacy d s -> nth_error (ds_h d) a = Some ta -> nth_error (ds_h d) b = Some tb -> hd_ty ta = hd_ty tb ->
       hd_meta ta = false -> hd_meta tb = false -> header s a = Some x -> header s b = Some y ->
       d_valid x = false -> d_valid y = false -> compile false (JEq false (JHeader a) (JHeader b)) = Some e -> eval_bool (phv_env false d s [] []) e old = Some true).
Proof.
  intros C. pose proof (fun x y e => C false ex_d (create ex_d) 0 1 (ex_t 8) (ex_t 8) x y [] e ex_wf) as C'.
  assert (R : reach_ag false ex_d (create ex_d)) by (exists []; repeat split; constructor).
  specialize (fun x y e => C' x y e R eq_refl eq_refl eq_refl eq_refl eq_refl). assert (X := C' _ _ _ eq_refl eq_refl eq_refl eq_refl eq_refl). vm_compute in X. discriminate.
Qed.
(** Finding: variable-length fields of different lengths compare equal when their values are. *)
Definition vb_t : hdesc := mk_hdesc false 0 [Some 8; None].
Definition vb_d : desc := mk_desc [vb_t; vb_t] [] [] [].
Lemma vb_wf : wf vb_d.
Proof.
  assert (X : forall h t, nth_error (ds_h vb_d) h = Some t -> t = vb_t) by (intros [|[|h]] t Q; cbn in Q; try (injection Q as <-; reflexivity); destruct h; discriminate).
  constructor.
  - intros h h' t t' A B. rewrite (X _ _ A), (X _ _ B). auto.
  - intros h t A. rewrite (X _ _ A). reflexivity.
  - intros u i u' i' h (m & A & _). destruct u; discriminate.
  - intros u i h (m & A & _). destruct u; discriminate.
  - intros k e A. destruct k; discriminate.
  - intros k e h h' A. destruct k; discriminate.
  - intros k e A. destruct k; discriminate.
  - intros k e h h' A. destruct k; discriminate.
Qed.
Definition vb_ops : list op := [OExtract 0 8 [1%Z; 5%Z]; OExtract 1 16 [1%Z; 5%Z]].
Definition vb_s : phv := match run false vb_d (create vb_d) vb_ops with Some s => s | None => create vb_d end.
Lemma vb_reach : reach_ag false vb_d vb_s.
Proof. exists vb_ops. split; [|split; [repeat constructor|reflexivity]]. constructor; [exists vb_t; auto|]. constructor; [exists vb_t; auto|constructor]. Qed.
Theorem C36_varbit_equality_refuted :
  ~ (forall legacy d s a b x y old e, wf d -> reach_ag legacy d s -> header s a = Some x -> header s b = Some y ->
       compile false (JEq false (JHeader a) (JHeader b)) = Some e -> eval_bool (phv_env false d s [] []) e old = Some true -> map fst (d_fields x) = map fst (d_fields y)).
Proof. intros C. pose proof (fun x y e => C false vb_d vb_s 0 1 x y [] e vb_wf vb_reach) as C'. specialize (C' _ _ _ eq_refl eq_refl eq_refl eq_refl). vm_compute in C'. discriminate. Qed.
(** Finding: the JSON operator access_union_header is translated to a field access (P4Objects.cpp 199), which takes its operand from the wrong stack *)
Definition ex_member_valid : jexp := JOp OValid JNull (JAccessU (JUnion 1) 1).
Theorem C36_access_union_header_refuted :
  ~ (forall j t, has_ty j t -> exists x, compile false j = Some x /\ forall E old, answers E x old t (value E j)).
Proof.
  intros C. destruct (C ex_member_valid TBool) as (x & Cx & A); [repeat econstructor|]. injection Cx as <-.
  specialize (A (phv_env false ex_d ex_s [] []) []). vm_compute in A. discriminate.
Qed.
Example ex_member_value : value (phv_env false ex_d ex_s [] []) ex_member_valid = Some (VB true).
Proof. vm_compute. reflexivity. Qed.
(** Finding: "and" and "or" evaluate both operands: a guard does not protect what follows it, as it does in P4 *)
Definition ex_guarded : jexp := JOp OAndB (JOp (OCmp CNeq) (JHex 0) (JHex 0)) (JOp (OCmp CEq) (JOp (OBin BDiv) (JHex 1) (JHex 0)) (JHex 1)).
Theorem C36_short_circuit_refuted :
  ~ (forall l r x E old, has_ty l TBool -> has_ty r TBool -> value E l = Some (VB false) -> compile false (JOp OAndB l r) = Some x -> eval_bool E x old = Some false).
Proof.
  intros C. set (xg := match compile false ex_guarded with Some x => x | None => ([], [], 0) end). assert (CX : compile false ex_guarded = Some xg) by (vm_compute; reflexivity).
  pose proof (C (JOp (OCmp CNeq) (JHex 0) (JHex 0)) (JOp (OCmp CEq) (JOp (OBin BDiv) (JHex 1) (JHex 0)) (JHex 1)) xg (phv_env false ex_d ex_s [] []) []) as C'.
  assert (T1 : has_ty (JOp (OCmp CNeq) (JHex 0) (JHex 0)) TBool) by (eapply t_bin; [reflexivity|constructor|constructor]).
  assert (T2 : has_ty (JOp (OCmp CEq) (JOp (OBin BDiv) (JHex 1) (JHex 0)) (JHex 1)) TBool) by (eapply t_bin; [reflexivity|eapply t_bin; [reflexivity|constructor|constructor]|constructor]).
  assert (V : value (phv_env false ex_d ex_s [] []) (JOp (OCmp CNeq) (JHex 0) (JHex 0)) = Some (VB false)) by (vm_compute; reflexivity).
  specialize (C' T1 T2 V CX). vm_compute in C'. discriminate.
Qed.

(** ** Hypotheses are met: nested conditionals, arithmetic, stacks, registers *)
Definition ex_j : jexp :=
  JOp (OBin BAdd)
    (JTern (JOp (OCmp CGt) (JField 0 1) (JHex 3)) (JOp (OBin BMul) (JLocal 0) (JOp (OBin BSub) JNull (JHex 5))) (JOp (OBin BDiv) (JHex 7) (JHex 0)))
    (JOp (OBin BSub) (JTern (JOp OValid JNull (JHeader 0)) (JRegGen 0 (JOp (OBin BAdd) (JHex 1) (JHex 1))) (JOp OB2D JNull (JBool true)))
       (JOp (OBin BAdd) (JAccess (JOp ODeref (JStack 0) (JOp OLastIndex (JStack 0) JNull)) 1) (JStackField 0 0))).
Example ex_j_ty : has_ty ex_j TData.
Proof.
  eapply t_bin; [reflexivity| |].
  - constructor; [eapply t_bin; [reflexivity|constructor|constructor]| |eapply t_bin; [reflexivity|constructor|constructor]].
    eapply t_bin; [reflexivity|constructor|]. apply t_sign; [auto|constructor].
  - eapply t_bin; [reflexivity| |].
    + constructor; [eapply t_un_r; [reflexivity|constructor]|constructor; eapply t_bin; [reflexivity|constructor|constructor]|eapply t_un_r; [reflexivity|constructor]].
    + eapply t_bin; [reflexivity| |constructor]. constructor. eapply t_bin; [reflexivity|constructor|]. eapply t_un_l; [reflexivity|constructor].
Qed.
Example ex_j_no : no_member ex_j.
Proof. cbn. tauto. Qed.
Definition ex_env : env := phv_env false ex_d (match run false ex_d (create ex_d) [OExtractNext 0 0 [3%Z; 4%Z]; OExtractNext 0 0 [5%Z; 6%Z]] with Some s => s | None => create ex_d end) [10%Z] [[7%Z; 8%Z; 9%Z]].
Example ex_j_value : value ex_env ex_j = Some (VD (10 * -5 + (9 - (6 + 5))))%Z.
Proof. vm_compute. reflexivity. Qed.
Example ex_j_run : match compile false ex_j with Some x => (length (fst (fst x)), snd (fst x), snd x, eval_arith ex_env x [99%Z; 98%Z]) | None => (0, [], 0, None) end = (34, [3; 0; 5; 7; 0; 1; 1]%Z, 4, Some (-52)%Z).
Proof. vm_compute. reflexivity. Qed.
Example ex_lv : match compile false (JTern (JBool false) (JField 0 0) (JAccess (JOp ODeref (JStack 0) (JHex 1)) 1)) with Some x => eval_lvalue ex_env x [] | None => None end = Some (PField 1 1).
Proof. vm_compute. reflexivity. Qed.

Print Assumptions C36_expressions. Print Assumptions C36_built_by_api. Print Assumptions C36_empty. Print Assumptions C36_resolved. Print Assumptions C36_header_equality.
Print Assumptions C36_invalid_headers_equal_refuted. Print Assumptions C36_varbit_equality_refuted. Print Assumptions C36_access_union_header_refuted. Print Assumptions C36_short_circuit_refuted.
