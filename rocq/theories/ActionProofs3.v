(** The arguments of a call in either order of evaluation; executing actions and pipelines. *)
From Coq Require Import List Arith ZArith Lia Bool.
From Verif Require Import Base PhvModel ExprModel ExprSpec ExprProps ActionModel ActionSpec ActionProofs ActionProofs2.
Import ListNotations.

Fixpoint nums (lo : nat) (cs : list cparam) : Prop :=
  match cs with [] => True | c :: r => (forall off x, c = CExpr off x -> off = 1 + lo) /\ nums (if is_expr c then S lo else lo) r end.
Lemma numbered_nums B : forall A C, numbered (A ++ B ++ C) -> nums (count A) B.
Proof.
  induction B as [|c B IH]; intros A C N; [exact I|]. split.
  - intros off x ->. exact (N A off x (B ++ C) eq_refl).
  - specialize (IH (A ++ [c]) C). rewrite <- app_assoc in IH. specialize (IH N). rewrite count_app in IH. unfold count at 2 in IH. cbn [filter] in IH.
    destruct (is_expr c); cbn [length] in IH; [rewrite Nat.add_1_r in IH|rewrite Nat.add_0_r in IH]; exact IH.
Qed.
(** No expression in a vector, or no expression by value *)
Definition plain (fn : afn) (ms : list mode) (cs : list cparam) : Prop :=
  (forall m c, In (m, c) (combine ms cs) -> vecx fn m c = false) \/ (forall m c, In (m, c) (combine ms cs) -> woff m c = None).
Lemma plain_tl fn m c ms cs : plain fn (m :: ms) (c :: cs) -> plain fn ms cs.
Proof. intros [H|H]; [left|right]; intros m' c' I'; apply H; right; exact I'. Qed.
Definition strs_ok (fn : afn) (cs : list cparam) : Prop := forall g i, In (CStr g i) cs -> g = a_gen fn.

Lemma reads_keep t1 t2 rs : (forall g i, In (RTemp g i) rs -> read t1 (RTemp g i) <> None -> read t2 (RTemp g i) = read t1 (RTemp g i)) ->
  forall l, reads t1 rs = Some l -> reads t2 rs = Some l.
Proof.
  induction rs as [|r rs IH]; intros H l R; cbn [reads] in *; [exact R|].
  destruct (read t1 r) as [s|] eqn:E; [|discriminate]. cbn [bind] in R. destruct (reads t1 rs) as [l'|]; [|discriminate]. cbn [bind] in R. injection R as <-.
  assert (E2 : read t2 r = Some s). { destruct r; try exact E. rewrite H; [exact E|left; reflexivity|rewrite E; discriminate]. }
  rewrite E2. cbn [bind]. rewrite (IH (fun g i I' => H g i (or_intror I')) l' eq_refl). reflexivity.
Qed.
Section Args.
Variables (E : env) (old ad : list Z) (fn : afn).
Lemma rtl_ok ms ps : Forall2 param_ok ms ps -> forall cs rest lo t, Forall2 (comp fn) ps cs -> nums lo cs -> plain fn ms cs -> strs_ok fn cs -> tgood t ->
  match means_all E ad ms ps with
  | Some l => exists rs t', args_rtl E old ad fn t ms (cs ++ rest) = Some (rs, t') /\ reads t' rs = Some l /\ length (dt t) <= length (dt t') /\
      (forall g i, In (RTemp g i) rs -> lo < i < length (dt t')) /\ ((forall m c, In (m, c) (combine ms cs) -> woff m c = None) -> forall g i, ~ In (RTemp g i) rs)
  | None => args_rtl E old ad fn t ms (cs ++ rest) = None
  end.
Proof.
  induction 1 as [|m p ms ps Ok F IH]; intros cs rest lo t C N P S T; inversion C as [|? c ? cs' C1 C2]; subst; cbn [means_all args_rtl app].
  { exists [], t. repeat split; auto; try contradiction. }
  destruct N as [N1 N2]. specialize (IH cs' rest _ t C2 N2 (plain_tl _ _ _ _ _ P) (fun g i I' => S g i (or_intror I')) T).
  destruct (means_all E ad ms ps) as [l|]; [|rewrite IH; destruct (means E ad m p); reflexivity].
  destruct IH as (rs & t1 & E1 & R1 & L1 & O1 & V1). rewrite E1. cbn [bind fst snd].
  pose proof (arg_ok E old ad fn t1 m p c Ok C1 eq_refl (fun g i Q => S g i (or_introl Q)) ltac:(unfold tgood in *; lia)) as K.
  destruct (means E ad m p) as [s|]; [|rewrite K; reflexivity].
  destruct K as (r & t2 & E2 & R2 & L2 & W2 & K2). rewrite E2. cbn [bind fst snd]. exists (r :: rs), t2. split; [reflexivity|]. split; [|split; [lia|split]].
  - cbn [reads]. rewrite R2. cbn [bind]. assert (Q : reads t2 rs = Some l); [|rewrite Q; reflexivity].
    apply (reads_keep t1); [|exact R1]. intros g i I' Rd. specialize (O1 _ _ I').
    destruct P as [P|P].
    + apply K2; auto.
      * apply P. left. reflexivity.
      * lia.
      * intros W. destruct m; try discriminate. destruct c; try discriminate. cbn in W. injection W as ->. specialize (N1 _ _ eq_refl). cbn [is_expr] in *. lia.
      * intros off W. destruct m; try discriminate. destruct c; try discriminate. cbn in W. injection W as ->. specialize (N1 _ _ eq_refl). cbn [is_expr] in *. lia.
    + exfalso. apply (V1 (fun m' c' J => P m' c' (or_intror J)) g i I').
  - intros g i [Q|Q].
    + destruct (woff m c) as [off|] eqn:W; [|exfalso; exact (W2 _ _ Q)]. destruct W2 as [W2 W3]. rewrite Q in W2. injection W2 as -> ->.
      destruct m; try discriminate. destruct c; try discriminate. cbn in W. injection W as ->. specialize (N1 _ _ eq_refl). lia.
    + specialize (O1 _ _ Q). destruct (is_expr c); lia.
  - intros W g i [Q|Q].
    + rewrite (W m c (or_introl eq_refl)) in W2. exact (W2 _ _ Q).
    + exact (V1 (fun m' c' J => W m' c' (or_intror J)) g i Q).
Qed.
Lemma ltr_ok ms ps : Forall2 param_ok ms ps -> forall cs rest lo t, Forall2 (comp fn) ps cs -> nums lo cs -> plain fn ms cs -> strs_ok fn cs -> tgood t ->
  lo + count cs < length (dt t) ->
  match means_all E ad ms ps with
  | Some l => exists rs t', args_ltr E old ad fn t ms (cs ++ rest) = Some (rs, t') /\ reads t' rs = Some l /\ length (dt t) <= length (dt t') /\
      ((forall m c, In (m, c) (combine ms cs) -> vecx fn m c = false) -> forall g i, 0 < i <= lo -> read t (RTemp g i) <> None -> read t' (RTemp g i) = read t (RTemp g i))
  | None => args_ltr E old ad fn t ms (cs ++ rest) = None
  end.
Proof.
  induction 1 as [|m p ms ps Ok F IH]; intros cs rest lo t C N P S T Lo; inversion C as [|? c ? cs' C1 C2]; subst; cbn [means_all args_ltr app].
  { exists [], t. repeat split; auto; try contradiction. }
  destruct N as [N1 N2].
  pose proof (arg_ok E old ad fn t m p c Ok C1 eq_refl (fun g i Q => S g i (or_introl Q)) T) as K.
  destruct (means E ad m p) as [s|]; [|rewrite K; reflexivity].
  destruct K as (r & t1 & E2 & R2 & L2 & W2 & K2). rewrite E2. cbn [bind fst snd].
  assert (Lo' : (if is_expr c then Datatypes.S lo else lo) + count cs' = lo + count (c :: cs')) by (unfold count; cbn [filter]; destruct (is_expr c); cbn [length]; lia).
  specialize (IH cs' rest _ t1 C2 N2 (plain_tl _ _ _ _ _ P) (fun g i I' => S g i (or_intror I')) ltac:(unfold tgood in *; lia) ltac:(lia)).
  destruct (means_all E ad ms ps) as [l|]; [|rewrite IH; reflexivity].
  destruct IH as (rs & t2 & E1 & R1 & L1 & V1). rewrite E1. cbn [bind fst snd]. exists (r :: rs), t2. split; [reflexivity|]. split; [|split; [lia|]].
  - cbn [reads]. assert (Q : read t2 r = Some s); [|rewrite Q, R1; reflexivity].
    destruct r; try exact R2. destruct (woff m c) as [off|] eqn:W; [|exfalso; exact (W2 _ _ eq_refl)]. destruct W2 as [W2 W3]. injection W2 as -> ->.
    destruct P as [P|P]; [|rewrite (P m c (or_introl eq_refl)) in W; discriminate].
    rewrite V1; [exact R2|intros m' c' J; exact (P m' c' (or_intror J))| |rewrite R2; discriminate].
    destruct m; try discriminate. destruct c; try discriminate. cbn in W. injection W as ->. specialize (N1 _ _ eq_refl). cbn [is_expr] in *. lia.
  - intros V g i Hi Hr.
    assert (Q : read t1 (RTemp g i) = read t (RTemp g i)).
    { apply K2; auto; [apply V; left; reflexivity|lia|..].
      - intros W. destruct m; try discriminate. destruct c; try discriminate. cbn in W. injection W as ->. specialize (N1 _ _ eq_refl). lia.
      - intros off W. destruct m; try discriminate. destruct c; try discriminate. cbn in W. injection W as ->. specialize (N1 _ _ eq_refl).
        unfold count in Lo. cbn in Lo. lia. }
    rewrite V1; [exact Q|intros m' c' J; exact (V m' c' (or_intror J))|destruct (is_expr c); lia|rewrite Q; exact Hr].
Qed.
End Args.

Lemma comp_vecx fn m p c : comp fn p c -> vecx fn m c = true -> in_vector p = true.
Proof.
  intros C V. destruct m; try discriminate. destruct c; try discriminate. destruct p; cbn [comp] in C; try contradiction; [destruct p; contradiction|].
  destruct C as (cs & S & F). cbn [vecx] in V. rewrite S in V. cbn [in_vector]. clear S. induction F as [|x y l cs F1 F IH]; [discriminate|]. cbn [existsb] in *.
  apply orb_true_iff in V. destruct V as [V|V]; [|rewrite (IH V); apply orb_true_r]. destruct y; try discriminate. destruct x; cbn in F1; try contradiction. reflexivity.
Qed.
Lemma comp_woff fn m p c off : comp fn p c -> woff m c = Some off -> by_value m p = true.
Proof. intros C W. destruct m; try discriminate. destruct c; try discriminate. destruct p; try contradiction. destruct p; try contradiction. reflexivity. Qed.
Lemma Forall2_In_combine {A B M} (P : A -> B -> Prop) (ms : list M) l k m c : Forall2 P l k -> In (m, c) (combine ms k) -> exists p, In (m, p) (combine ms l) /\ In p l /\ P p c.
Proof.
  intros F. revert ms. induction F as [|x y l k F1 F IH]; intros ms H; [destruct ms; contradiction|]. destruct ms as [|m0 ms]; [contradiction|].
  destruct H as [H|H]; [injection H as -> ->; exists x; cbn; auto|]. destruct (IH ms H) as (p & I1 & I2 & I3). exists p. cbn. auto.
Qed.
Lemma unmixed_plain fn p ps cs : unmixed (p, ps) -> Forall2 (comp fn) ps cs -> plain fn (sig p) cs.
Proof.
  intros U C. unfold unmixed in U. cbn [fst snd] in U. destruct (existsb in_vector ps) eqn:X.
  - right. intros m c I. destruct (Forall2_In_combine _ _ _ _ _ _ C I) as (q & I1 & I2 & I3). destruct (woff m c) as [off|] eqn:W; [|reflexivity].
    specialize (U eq_refl). pose proof (comp_woff _ _ _ _ _ I3 W) as Bv. exfalso.
    assert (existsb (fun mp => by_value (fst mp) (snd mp)) (combine (sig p) ps) = true) by (apply existsb_exists; exists (m, q); auto). congruence.
  - left. intros m c I. destruct (Forall2_In_combine _ _ _ _ _ _ C I) as (q & I1 & I2 & I3). destruct (vecx fn m c) eqn:V; [|reflexivity].
    pose proof (comp_vecx _ _ _ _ I3 V) as Bv. assert (existsb in_vector ps = true) by (apply existsb_exists; eauto). congruence.
Qed.
Lemma strs_gen l g : forall k, fst (restring g k l) = l -> forall g' i, In (CStr g' i) l -> g' = g.
Proof.
  induction l as [|c l IH]; intros k H g' i I; [contradiction|]. destruct I as [->|I].
  - cbn [restring fst] in H. injection H as <- _ _. reflexivity.
  - destruct c; cbn [restring fst] in H; injection H; intros; eauto.
Qed.
(** What a primitive of the action receives *)
Definition roomy (ltr : bool) (fn : afn) (t : dtemps) : Prop := 4 <= length (dt t) /\ (ltr = false \/ count (a_params fn) <= 3).
Lemma args_ok ltr E old ad fn n prog i p ps t : ginv fn n prog -> nth_error prog i = Some (p, ps) -> call_ok (p, ps) -> roomy ltr fn t ->
  exists off, nth_error (a_calls fn) i = Some (p, off) /\
  match means_all E ad (sig p) ps with
  | Some l => exists t', args ltr E old ad fn t (sig p) (skipn off (a_params fn)) = Some (l, t') /\ roomy ltr fn t'
  | None => args ltr E old ad fn t (sig p) (skipn off (a_params fn)) = None
  end.
Proof.
  intros G H [Ok U] [T4 R]. assert (T : tgood t) by (unfold tgood; lia). destruct (g_call _ _ _ G _ _ _ H) as (A & B & C & N & Q & F). exists (length A). split; [exact N|].
  pose proof (g_b _ _ _ G) as [_ _ m1 _ st]. rewrite Q in m1. pose proof (numbered_nums _ _ _ m1) as Nu.
  assert (Sk : skipn (length A) (a_params fn) = B ++ C) by (rewrite Q, skipn_app, skipn_all, Nat.sub_diag; reflexivity). rewrite Sk.
  assert (St : strs_ok fn B). { intros g j J. apply (strs_gen (a_params fn) (a_gen fn) 0) with (i := j); [rewrite st; reflexivity|]. rewrite Q. apply in_or_app. right. apply in_or_app. auto. }
  pose proof (unmixed_plain _ _ _ _ U F) as P. unfold args. destruct ltr.
  - destruct R as [R|R]; [discriminate|]. rewrite Q, !count_app in R. pose proof (ltr_ok E old ad fn _ _ Ok B C (count A) t F Nu P St T ltac:(lia)) as K.
    cbn [fst snd] in K. destruct (means_all E ad (sig p) ps) as [l|]; [|rewrite K; reflexivity].
    destruct K as (rs & t' & E1 & R1 & L1 & _). rewrite E1. cbn [bind fst snd]. rewrite R1. cbn [bind]. exists t'. split; [reflexivity|]. split; [lia|]. right. rewrite Q, !count_app. lia.
  - pose proof (rtl_ok E old ad fn _ _ Ok B C (count A) t F Nu P St T) as K.
    cbn [fst snd] in K. destruct (means_all E ad (sig p) ps) as [l|]; [|rewrite K; reflexivity].
    destruct K as (rs & t' & E1 & R1 & L1 & _). rewrite E1. cbn [bind fst snd]. rewrite R1. cbn [bind]. exists t'. split; [reflexivity|]. split; [lia|]. left. reflexivity.
Qed.

(** ** Execution *)
Lemma value_now E ad p s : sc_means E ad p = Some s -> value_of E s = now E s.
Proof.
  intros H. pose proof (sc_means_copy _ _ _ _ H) as C. destruct s; cbn in *; auto; try discriminate.
  destruct p0; cbn in *; auto; unfold deref in *; cbn in *; try (match goal with |- context [nth_error [] ?x] => destruct x; reflexivity end).
  all: match goal with |- ?x = None => destruct x; [discriminate C|reflexivity] end.
Qed.
Section Exec.
Variables (W : world) (ltr : bool) (old ad : list Z) (fn : afn) (n : nat) (prog : list (prim * list jparam)).
Hypothesis G : ginv fn n prog.
Hypothesis Ok : Forall call_ok prog.
Lemma prog_ok i c : nth_error prog i = Some c -> call_ok c.
Proof. intros H. apply nth_error_In in H. rewrite Forall_forall in Ok. auto. Qed.
Lemma jump_arg i ps w l : nth_error prog i = Some (PJump, ps) -> means_all (p_env W ad w) ad [MConst] ps = Some l ->
  exists s, l = [s] /\ value_of (p_env W ad w) s = now (p_env W ad w) s.
Proof.
  intros H M. destruct (prog_ok _ _ H) as [F _]. cbn [fst snd sig] in F. inversion F as [|? p ? ps' F1 F2]; subst. inversion F2; subst.
  destruct p; cbn in F1; try contradiction. cbn [means_all means] in M. destruct (sc_means (p_env W ad w) ad p) as [s|] eqn:Q; [|discriminate].
  injection M as <-. exists s. split; [reflexivity|]. eapply value_now; eauto.
Qed.
Lemma jz_arg i ps w l : nth_error prog i = Some (PJumpIfZero, ps) -> means_all (p_env W ad w) ad [MConst; MConst] ps = Some l ->
  exists c s, l = [c; s] /\ value_of (p_env W ad w) c = now (p_env W ad w) c /\ value_of (p_env W ad w) s = now (p_env W ad w) s.
Proof.
  intros H M. destruct (prog_ok _ _ H) as [F _]. cbn [fst snd sig] in F. inversion F as [|? p ? ps' F1 F2]; subst. inversion F2 as [|? p2 ? ps2 F3 F4]; subst. inversion F4; subst.
  destruct p; cbn in F1; try contradiction. destruct p2; cbn in F3; try contradiction. cbn [means_all means] in M.
  destruct (sc_means (p_env W ad w) ad p) as [c|] eqn:Q; [|discriminate]. destruct (sc_means (p_env W ad w) ad p0) as [s|] eqn:Q2; [|discriminate].
  injection M as <-. exists c, s. split; [reflexivity|]. split; eapply value_now; eauto.
Qed.
(** A field or register that is there can be read *)
Lemma now_some i ps w l s : nth_error prog i = Some (PJump, ps) \/ nth_error prog i = Some (PJumpIfZero, ps) ->
  means_all (p_env W ad w) ad (match nth_error prog i with Some (p, _) => sig p | None => [] end) ps = Some l -> In s l -> exists z, now (p_env W ad w) s = Some z.
Proof.
  set (E := p_env W ad w). intros H M I.
  assert (X : forall p s, sc_means E ad p = Some s -> exists z, now E s = Some z).
  { clear. intros p s Hs. assert (R : forall a i, reg_cell E a i = Some s -> exists z, now E s = Some z) by (intros a i; unfold reg_cell; destruct (e_reg E a i) eqn:Q; [intros Q'; injection Q' as <-; cbn; eauto|discriminate]).
    assert (F : forall h f, field_cell E h f = Some s -> exists z, now E s = Some z) by (intros a i; unfold field_cell; destruct (e_field E a i) eqn:Q; [intros Q'; injection Q' as <-; cbn; eauto|discriminate]).
    destruct p; cbn [sc_means] in Hs; eauto.
    - injection Hs as <-. cbn. eauto.
    - destruct (nth_error ad i); [|discriminate]. injection Hs as <-. cbn. eauto.
    - destruct (value E j) as [[]|]; try discriminate. injection Hs as <-. cbn. eauto.
    - destruct (value E j) as [[]|]; try discriminate. destruct (Z_lt_dec z 0); [discriminate|]. eauto.
    - destruct (e_last E k) as [h|]; [|discriminate]. eauto. }
  assert (Y : forall ms ps l, Forall2 param_ok ms ps -> (forall m, In m ms -> m = MConst) -> means_all E ad ms ps = Some l -> In s l -> exists z, now E s = Some z).
  { clear - X. induction ms as [|m ms IH]; intros ps l F Hm M I; inversion F as [|? p ? ps' F1 F2]; subst; cbn [means_all] in M; [injection M as <-; contradiction|].
    destruct (means E ad m p) as [s0|] eqn:Q; [|discriminate]. destruct (means_all E ad ms ps') as [l'|] eqn:Q2; [|discriminate]. injection M as <-.
    destruct I as [->|I]; [|eapply IH; eauto; intros; apply Hm; right; assumption]. rewrite (Hm m (or_introl eq_refl)) in *. destruct p; cbn in F1; try contradiction. cbn [means] in Q. eauto. }
  destruct H as [H|H]; rewrite H in M; destruct (prog_ok _ _ H) as [F _]; cbn [fst snd] in F; eapply Y; eauto; cbn [sig]; intros m Hm; repeat (destruct Hm as [<-|Hm]; [reflexivity|]); contradiction.
Qed.
Lemma exec_sound k : forall i t w o, roomy ltr fn t -> outcome (exec_fn W ltr old ad fn k i t w) = Some o -> performs W ad prog i w o.
Proof.
  induction k as [|k IH]; intros i t w o R H; cbn [exec_fn] in H.
  - destruct (nth_error (a_calls fn) i) as [[p off]|] eqn:C; [discriminate|]. cbn in H. injection H as <-. apply p_end. rewrite <- (g_len _ _ _ G). apply nth_error_None. exact C.
  - destruct (nth_error prog i) as [[p ps]|] eqn:Pi.
    2:{ assert (C : nth_error (a_calls fn) i = None) by (apply nth_error_None; apply nth_error_None in Pi; rewrite (g_len _ _ _ G); exact Pi). rewrite C in H. cbn in H. injection H as <-. apply p_end. apply nth_error_None. exact Pi. }
    destruct (args_ok ltr (p_env W ad w) old ad fn n prog i p ps t G Pi (prog_ok _ _ Pi) R) as (off & C & A). rewrite C in H.
    destruct (means_all (p_env W ad w) ad (sig p) ps) as [l|] eqn:M.
    2:{ rewrite A in H. cbn in H. injection H as <-. eapply p_bad; eauto. }
    destruct A as (t' & A & R'). rewrite A in H. destruct p as [| |id sg]; cbn [sig] in M.
    + destruct (jump_arg _ _ _ _ Pi M) as (s & -> & V). destruct (now_some i ps w [s] s) as [z Z]; [left; exact Pi|rewrite Pi; exact M|left; reflexivity|].
      cbn [run_prim] in H. rewrite V, Z in H. cbn [bind] in H. destruct (Z.ltb_spec (p_int W z) 0); cbn in H.
      * injection H as <-. eapply p_leave; eauto.
      * eapply p_jump; eauto.
    + destruct (jz_arg _ _ _ _ Pi M) as (c & s & -> & V1 & V2). destruct (now_some i ps w [c; s] c) as [z Z]; [right; exact Pi|rewrite Pi; exact M|left; reflexivity|].
      destruct (now_some i ps w [c; s] s) as [y Y]; [right; exact Pi|rewrite Pi; exact M|right; left; reflexivity|].
      cbn [run_prim] in H. rewrite V1, Z in H. cbn [bind] in H. destruct (Z.eqb_spec (p_int W z) 0).
      * rewrite V2, Y in H. cbn [bind] in H. destruct (Z.ltb_spec (p_int W y) 0).
        -- eapply p_zero_neg; eauto.
        -- eapply p_zero; eauto.
      * eapply p_nonzero; eauto.
    + cbn [run_prim] in H. destruct (p_sem W id l w) as [w'|] eqn:Se; cbn [bind] in H.
      * eapply p_call; eauto.
      * cbn in H. injection H as <-. eapply p_fail; eauto.
Qed.
Lemma exec_complete i w o : performs W ad prog i w o -> forall t, roomy ltr fn t -> exists k, outcome (exec_fn W ltr old ad fn k i t w) = Some o.
Proof.
  induction 1 as [i w L|i w p ps Pi M|i w id sg ps l Pi M Se|i w id sg ps l w' o Pi M Se _ IH|i w ps s z o Pi M Z Q _ IH|i w ps s z Pi M Z Q|i w ps c s z o y Pi M Z Q Y Q2 _ IH|i w ps c s z o y Pi M Z Q Y Q2 _ IH|i w ps c s z o Pi M Z Q _ IH]; intros t R.
  1:{ exists 0. cbn [exec_fn]. rewrite (proj2 (nth_error_None _ _)) by (rewrite (g_len _ _ _ G); exact L). reflexivity. }
  all: pose proof (args_ok ltr (p_env W ad w) old ad fn n prog _ _ _ t G Pi (prog_ok _ _ Pi) R) as (off & C & A); cbn [sig] in A; rewrite M in A.
  - exists 1. cbn [exec_fn]. rewrite C, A. reflexivity.
  - destruct A as (t' & A & R'). exists 1. cbn [exec_fn]. rewrite C. cbn [sig]. rewrite A. cbn [run_prim]. rewrite Se. reflexivity.
  - destruct A as (t' & A & R'). destruct (IH t' R') as [k Hk]. exists (S k). cbn [exec_fn]. rewrite C. cbn [sig]. rewrite A. cbn [run_prim]. rewrite Se. cbn [bind]. exact Hk.
  - destruct A as (t' & A & R'). destruct (IH t' R') as [k Hk]. exists (S k). cbn [exec_fn]. rewrite C. cbn [sig]. rewrite A. cbn [run_prim].
    destruct (jump_arg _ _ _ _ Pi M) as (s' & Es & V). injection Es as <-. rewrite V, Z. cbn [bind]. destruct (Z.ltb_spec (p_int W z) 0); [lia|]. exact Hk.
  - destruct A as (t' & A & R'). exists 1. cbn [exec_fn]. rewrite C. cbn [sig]. rewrite A. cbn [run_prim].
    destruct (jump_arg _ _ _ _ Pi M) as (s' & Es & V). injection Es as <-. rewrite V, Z. cbn [bind]. destruct (Z.ltb_spec (p_int W z) 0); [|lia]. reflexivity.
  - destruct A as (t' & A & R'). destruct (IH t' R') as [k Hk]. exists (S k). cbn [exec_fn]. rewrite C. cbn [sig]. rewrite A. cbn [run_prim].
    destruct (jz_arg _ _ _ _ Pi M) as (c' & s' & Es & V1 & V2). injection Es as <- <-. rewrite V1, Z. cbn [bind]. rewrite Q. cbn [Z.eqb]. rewrite V2, Y. cbn [bind]. destruct (Z.ltb_spec (p_int W y) 0); [lia|]. exact Hk.
  - destruct A as (t' & A & R'). destruct (IH t' R') as [k Hk]. exists (S k). cbn [exec_fn]. rewrite C. cbn [sig]. rewrite A. cbn [run_prim].
    destruct (jz_arg _ _ _ _ Pi M) as (c' & s' & Es & V1 & V2). injection Es as <- <-. rewrite V1, Z. cbn [bind]. rewrite Q. cbn [Z.eqb]. rewrite V2, Y. cbn [bind]. destruct (Z.ltb_spec (p_int W y) 0); [|lia]. exact Hk.
  - destruct A as (t' & A & R'). destruct (IH t' R') as [k Hk]. exists (S k). cbn [exec_fn]. rewrite C. cbn [sig]. rewrite A. cbn [run_prim].
    destruct (jz_arg _ _ _ _ Pi M) as (c' & s' & Es & V1 & V2). injection Es as <- <-. rewrite V1, Z. cbn [bind]. destruct (Z.eqb_spec (p_int W z) 0); [contradiction|]. exact Hk.
Qed.
Lemma exec_roomy k : forall i t w w' t', roomy ltr fn t -> exec_fn W ltr old ad fn k i t w = Done (w', t') -> roomy ltr fn t'.
Proof.
  induction k as [|k IH]; intros i t w w' t' R H; cbn [exec_fn] in H.
  - destruct (nth_error (a_calls fn) i) as [[p off]|]; [discriminate|]. injection H as <- <-. exact R.
  - destruct (nth_error prog i) as [[p ps]|] eqn:Pi.
    2:{ assert (C : nth_error (a_calls fn) i = None) by (apply nth_error_None; apply nth_error_None in Pi; rewrite (g_len _ _ _ G); exact Pi). rewrite C in H. injection H as <- <-. exact R. }
    destruct (args_ok ltr (p_env W ad w) old ad fn n prog i p ps t G Pi (prog_ok _ _ Pi) R) as (off & C & A). rewrite C in H.
    destruct (means_all (p_env W ad w) ad (sig p) ps) as [l|]; [|rewrite A in H; discriminate].
    destruct A as (t1 & A & R'). rewrite A in H. destruct (run_prim W (p_env W ad w) p l i w) as [[w1 [i1|]]|]; [eapply IH; eauto| |discriminate]. injection H as <- <-. exact R'.
Qed.
End Exec.
(** More fuel changes nothing *)
Lemma exec_more W ltr old ad fn k : forall i t w r, exec_fn W ltr old ad fn k i t w = r -> r <> OutOfFuel -> forall k', k <= k' -> exec_fn W ltr old ad fn k' i t w = r.
Proof.
  induction k as [|k IH]; intros i t w r H N k' L; cbn [exec_fn] in H.
  - destruct (nth_error (a_calls fn) i) as [[p off]|] eqn:C; [congruence|]. destruct k'; cbn [exec_fn]; rewrite C; exact H.
  - destruct k' as [|k']; [lia|]. cbn [exec_fn]. destruct (nth_error (a_calls fn) i) as [[p off]|]; [|exact H].
    destruct (args _ _ _ _ _ _ _ _) as [[l t']|]; [|exact H]. destruct (run_prim W (p_env W ad w) p l i w) as [[w1 [i1|]]|]; auto. apply IH; auto. lia.
Qed.

(** A run is unique *)
Lemma performs_fun W ad prog i w o : performs W ad prog i w o -> forall o', performs W ad prog i w o' -> o = o'.
Proof.
  assert (X : forall i, length prog <= i -> nth_error prog i = None) by (intros k; apply nth_error_None).
  induction 1; intros o' H'; inversion H'; subst; cbn [sig] in *;
    try (match goal with H : length prog <= ?k, N : nth_error prog ?k = Some _ |- _ => rewrite (X k H) in N; discriminate N end);
    repeat match goal with
    | A : nth_error prog ?k = Some _, B : nth_error prog ?k = Some _ |- _ => rewrite A in B; injection B; clear B; intros; subst; cbn [sig] in *
    | A : means_all ?a ?b ?c ?d = _, B : means_all ?a ?b ?c ?d = _ |- _ => rewrite A in B; first [discriminate B | injection B; clear B; intros; subst]
    | A : now ?a ?b = Some _, B : now ?a ?b = Some _ |- _ => rewrite A in B; injection B; clear B; intros; subst
    | A : p_sem W ?a ?b ?c = _, B : p_sem W ?a ?b ?c = _ |- _ => rewrite A in B; first [discriminate B | injection B; clear B; intros; subst]
    end; try congruence; try lia; auto.
Qed.
(** Forward jumps *)
Lemma exec_forward W ltr old ad fn n prog : ginv fn n prog -> Forall call_ok prog ->
  (forall i ps, nth_error prog i = Some (PJump, ps) -> exists z, ps = [JS (SC z)] /\ (Z.of_nat i < p_int W z)%Z) ->
  (forall i ps, nth_error prog i = Some (PJumpIfZero, ps) -> exists c z, ps = [c; JS (SC z)] /\ (Z.of_nat i < p_int W z)%Z) ->
  forall k i t w, roomy ltr fn t -> length prog <= i + k -> exec_fn W ltr old ad fn k i t w <> OutOfFuel.
Proof.
  intros G Ok F1 F2. induction k as [|k IH]; intros i t w R L; cbn [exec_fn].
  - rewrite (proj2 (nth_error_None _ _)) by (rewrite (g_len _ _ _ G); lia). discriminate.
  - destruct (nth_error prog i) as [[p ps]|] eqn:Pi.
    2:{ assert (C : nth_error (a_calls fn) i = None) by (apply nth_error_None; apply nth_error_None in Pi; rewrite (g_len _ _ _ G); exact Pi). rewrite C. discriminate. }
    destruct (args_ok ltr (p_env W ad w) old ad fn n prog i p ps t G Pi (prog_ok _ Ok _ _ Pi) R) as (off & C & A). rewrite C.
    destruct (means_all (p_env W ad w) ad (sig p) ps) as [l|] eqn:M; [|rewrite A; discriminate].
    destruct A as (t1 & A & R'). rewrite A. destruct p as [| |id sg]; cbn [sig] in M.
    + destruct (F1 _ _ Pi) as (z & -> & Hz). cbn in M. injection M as <-. cbn [run_prim value_of bind].
      destruct (Z.ltb_spec (p_int W z) 0); [lia|]. apply IH; [exact R'|lia].
    + destruct (F2 _ _ Pi) as (c & z & -> & Hz). cbn [means_all] in M. destruct (means (p_env W ad w) ad MConst c) as [s|]; [|discriminate]. cbn [means sc_means] in M. injection M as <-. cbn [run_prim].
      destruct (value_of (p_env W ad w) s) as [y|]; cbn [bind]; [|discriminate]. cbn [value_of bind]. destruct (p_int W y =? 0)%Z; [|apply IH; [exact R'|lia]].
      destruct (Z.ltb_spec (p_int W z) 0); [lia|]. apply IH; [exact R'|lia].
    + cbn [run_prim]. destruct (p_sem W id l w) as [w'|]; cbn [bind]; [|discriminate]. apply IH; [exact R'|lia].
Qed.

(** Structured programs *)
Lemma low_lowers l : forall b, (fix low (b : nat) (l : list stmt) := match l with [] => [] | s :: r => lower b s ++ low (b + size s) r end) b l = lowers b l.
Proof. induction l as [|s l IH]; intros b; cbn [lowers]; [reflexivity|]. rewrite IH. reflexivity. Qed.
Lemma lower_if b c y n : lower b (If c y n) = [(PJumpIfZero, [JS c; JS (SC (Z.of_nat (b + 2 + sizes y)))])] ++ lowers (S b) y ++ [(PJump, [JS (SC (Z.of_nat (b + 2 + sizes y + sizes n)))])] ++ lowers (b + 2 + sizes y) n.
Proof. cbn [lower]. rewrite !low_lowers. reflexivity. Qed.
Lemma stmt_rect' (P : stmt -> Prop) : (forall id sg ps, P (Call id sg ps)) -> (forall c y n, Forall P y -> Forall P n -> P (If c y n)) -> forall s, P s.
Proof.
  intros H1 H2. fix IH 1. intros [id sg ps|c y n]; [apply H1|]. apply H2.
  - induction y as [|s y IHy]; constructor; auto.
  - induction n as [|s n IHn]; constructor; auto.
Qed.
Lemma lower_length s : forall b, length (lower b s) = size s.
Proof.
  induction s as [id sg ps|c y n Hy Hn] using stmt_rect'; intros b; [reflexivity|]. rewrite lower_if. cbn [app length size].
  assert (X : forall l, Forall (fun s => forall b, length (lower b s) = size s) l -> forall b, length (lowers b l) = sizes l).
  { clear. induction l as [|s l IH]; intros F b; [reflexivity|]. inversion F as [|? ? F1 F2]; subst. cbn [lowers sizes fold_right]. rewrite app_length, F1, (IH F2). reflexivity. }
  rewrite !app_length. cbn [length]. rewrite (X y Hy), (X n Hn). unfold sizes. lia.
Qed.
Lemma lowers_length l : forall b, length (lowers b l) = sizes l.
Proof. induction l as [|s l IH]; intros b; [reflexivity|]. cbn [lowers sizes fold_right]. rewrite app_length, lower_length, IH. reflexivity. Qed.
Lemma does_performs W ad : (forall z, (- 2 ^ 31 <= z < 2 ^ 31)%Z -> p_int W z = z) -> forall l w w', does W ad l w w' ->
  forall A C o, (Z.of_nat (length (A ++ lowers (length A) l ++ C)) < 2 ^ 31)%Z ->
    performs W ad (A ++ lowers (length A) l ++ C) (length A + sizes l) w' o -> performs W ad (A ++ lowers (length A) l ++ C) (length A) w o.
Proof.
  intros Int l w w' D. induction D as [w|id sg ps r w l w' w'' M Se _ IH|c y n r w s z w' w'' M Z R _ IH1 _ IH2]; intros A C o L P.
  - cbn [sizes fold_right] in P. rewrite Nat.add_0_r in P. exact P.
  - cbn [lowers lower size] in *. rewrite <- app_assoc in *. cbn [app] in *. eapply p_call; [rewrite nth_error_app2, Nat.sub_diag by lia; reflexivity|exact M|exact Se|].
    specialize (IH (A ++ [(POther id sg, ps)]) C o). assert (L1 : length (A ++ [(POther id sg, ps)]) = S (length A)) by (rewrite app_length; cbn [length]; lia). rewrite L1, <- !app_assoc in IH. cbn [app] in IH.
    rewrite Nat.add_1_r in *. apply IH; [exact L|]. cbn [sizes fold_right size] in P. replace (S (length A) + sizes r) with (length A + (1 + fold_right (fun s k => size s + k) 0 r)) by (unfold sizes; lia). exact P.
  - cbn [lowers] in *. rewrite lower_if in *. set (els := length A + 2 + sizes y) in *. set (b2 := length A + size (If c y n)) in *.
    assert (B2 : b2 = els + sizes n) by (unfold b2, els, sizes; cbn [size]; lia).
    set (prog := A ++ (([(PJumpIfZero, [JS c; JS (SC (Z.of_nat els))])] ++ lowers (S (length A)) y ++ [(PJump, [JS (SC (Z.of_nat (els + sizes n)))])] ++ lowers els n) ++ lowers b2 r) ++ C) in *.
    assert (Len : length prog = length A + (1 + (sizes y + (1 + sizes n))) + sizes r + length C) by (unfold prog; rewrite !app_length, !lowers_length; cbn [length]; lia).
    (* the rest *)
    assert (Rest : performs W ad prog b2 w' o).
    { set (A3 := A ++ [(PJumpIfZero, [JS c; JS (SC (Z.of_nat els))])] ++ lowers (S (length A)) y ++ [(PJump, [JS (SC (Z.of_nat (els + sizes n)))])] ++ lowers els n).
      assert (E3 : prog = A3 ++ lowers b2 r ++ C) by (unfold prog, A3; rewrite <- !app_assoc; reflexivity).
      assert (L3 : length A3 = b2) by (unfold A3; rewrite !app_length, !lowers_length, B2; unfold els; cbn [length]; lia).
      specialize (IH2 A3 C o). rewrite L3, <- E3 in IH2. apply IH2; [exact L|]. replace (b2 + sizes r) with (length A + sizes (If c y n :: r)); [exact P|].
      unfold b2. unfold sizes at 1. cbn [fold_right]. fold (sizes r). lia. }
    assert (N0 : nth_error prog (length A) = Some (PJumpIfZero, [JS c; JS (SC (Z.of_nat els))])) by (unfold prog; rewrite nth_error_app2, Nat.sub_diag by lia; reflexivity).
    assert (M2 : means_all (p_env W ad w) ad [MConst; MConst] [JS c; JS (SC (Z.of_nat els))] = Some [s; SeeVal (Z.of_nat els)]) by (cbn [means_all means]; rewrite M; reflexivity).
    assert (Ie : p_int W (Z.of_nat els) = Z.of_nat els) by (apply Int; lia). assert (Iz : p_int W z = z) by (apply Int; exact R).
    destruct (Z.eq_dec z 0) as [->|Nz].
    + eapply p_zero; [exact N0|exact M2|exact Z|exact Iz|reflexivity|rewrite Ie; lia|]. rewrite Ie, Nat2Z.id.
      set (A2 := A ++ [(PJumpIfZero, [JS c; JS (SC (Z.of_nat els))])] ++ lowers (S (length A)) y ++ [(PJump, [JS (SC (Z.of_nat (els + sizes n)))])]).
      assert (E2 : prog = A2 ++ lowers els n ++ lowers b2 r ++ C) by (unfold prog, A2; rewrite <- !app_assoc; reflexivity).
      assert (L2 : length A2 = els) by (unfold A2; rewrite !app_length, !lowers_length; unfold els; cbn [length]; lia).
      specialize (IH1 A2 (lowers b2 r ++ C) o). rewrite L2, <- E2 in IH1. apply IH1; [exact L|]. rewrite <- B2. exact Rest.
    + eapply p_nonzero; [exact N0|exact M2|exact Z|rewrite Iz; exact Nz|].
      set (A1 := A ++ [(PJumpIfZero, [JS c; JS (SC (Z.of_nat els))])]).
      set (C1 := [(PJump, [JS (SC (Z.of_nat (els + sizes n)))])] ++ lowers els n ++ lowers b2 r ++ C).
      assert (E1 : prog = A1 ++ lowers (S (length A)) y ++ C1) by (unfold prog, A1, C1; rewrite <- !app_assoc; reflexivity).
      assert (L1 : length A1 = S (length A)) by (unfold A1; rewrite app_length; cbn [length]; lia).
      specialize (IH1 A1 C1 o). rewrite L1, <- E1 in IH1. apply IH1; [exact L|].
      eapply p_jump with (s := SeeVal (Z.of_nat b2)) (z := Z.of_nat b2).
      * rewrite E1, nth_error_app2 by lia. rewrite L1, nth_error_app2 by (rewrite lowers_length; lia). rewrite lowers_length.
        replace (S (length A) + sizes y - S (length A) - sizes y) with 0 by lia. unfold C1. cbn [app nth_error]. rewrite <- B2. reflexivity.
      * reflexivity.
      * reflexivity.
      * rewrite Int; lia.
      * rewrite Int by lia. rewrite Nat2Z.id. exact Rest.
Qed.

(** ** Pipelines *)
Section Pipe.
Variables (W : world) (ltr : bool) (old : list Z) (sg : list (snode W)) (g : list (node W)).
Hypothesis L : Forall2 (loaded W ltr) sg g.
Lemma graph_nth n : match nth_error sg n, nth_error g n with Some s, Some d => loaded W ltr s d | None, None => True | _, _ => False end.
Proof. revert n. induction L as [|x y l m H F IH]; intros [|n]; cbn [nth_error]; [exact I|exact I|exact H|exact (IH F n)]. Qed.
Lemma bool_value E j x : has_ty j TBool -> no_member j -> compile false j = Some x ->
  eval_bool E x old = match value E j with Some (VB b) => Some b | _ => None end.
Proof.
  intros T N C. destruct (C36_expressions j TBool T N) as (x' & C' & A). rewrite C in C'. injection C' as <-. destruct (A E old) as [A1 _].
  destruct (value E j) as [v|] eqn:V; [|exact A1]. destruct v; cbn in A1; try contradiction. exact A1.
Qed.
Lemma node_sound s d k t w w' t' nx : loaded W ltr s d -> 4 <= length (dt t) -> run_node W ltr old k t d w = Done (w', t', nx) -> visit W s w w' nx /\ 4 <= length (dt t').
Proof.
  intros Ld T H. destruct Ld as [j x a b Ty N C|prog nx0 n0 fn n1 Ok H0 Hl E|ap]; cbn [run_node] in H.
  - rewrite (bool_value _ _ _ Ty N C) in H. destruct (value (p_env W [] w) j) as [[| [] | | | |]|] eqn:V; try discriminate; injection H as <- <- <-; split; auto; [apply v_true|apply v_false]; exact V.
  - pose proof (built_ginv _ _ _ _ Ok H0 E) as G. assert (R : roomy ltr fn t) by (split; [exact T|rewrite (g_count _ _ _ G); exact Hl]).
    destruct (exec_fn W ltr old [] fn k 0 t w) as [[w1 t1]| |] eqn:X; try discriminate. injection H as <- <- <-. split.
    + apply v_action. eapply exec_sound; eauto. rewrite X. reflexivity.
    + eapply exec_roomy; eauto.
  - destruct (ap w) as [[w1 nx1]|] eqn:A; [|discriminate]. injection H as <- <- <-. split; [apply v_table; exact A|exact T].
Qed.
Lemma node_complete s d t w w' nx : loaded W ltr s d -> 4 <= length (dt t) -> visit W s w w' nx -> exists k0 t', forall k, k0 <= k -> run_node W ltr old k t d w = Done (w', t', nx).
Proof.
  intros Ld T V. destruct V as [j a b w V|j a b w V|prog nx w w' P|ap w w' nx A]; inversion Ld as [j' x a' b' Ty N C|prog' nx0 n0 fn n1 Ok H0 Hl E|ap']; subst; cbn [run_node].
  - exists 0, t. intros k _. rewrite (bool_value _ _ _ Ty N C), V. reflexivity.
  - exists 0, t. intros k _. rewrite (bool_value _ _ _ Ty N C), V. reflexivity.
  - pose proof (built_ginv _ _ _ _ Ok H0 E) as G. assert (R : roomy ltr fn t) by (split; [exact T|rewrite (g_count _ _ _ G); exact Hl]).
    destruct (exec_complete W ltr old [] fn n1 prog G Ok 0 w (Some w') P t R) as [k0 K].
    destruct (exec_fn W ltr old [] fn k0 0 t w) as [[w1 t1]| |] eqn:X; try discriminate. cbn in K. injection K as ->.
    exists k0, t1. intros k Hk. rewrite (exec_more _ _ _ _ _ _ _ _ _ _ X ltac:(discriminate) k Hk). reflexivity.
  - exists 0, t. intros k _. rewrite A. reflexivity.
Qed.
Lemma apply_sound k : forall c t w w' t' l, 4 <= length (dt t) -> apply W ltr old g k t c w = Done (w', t', l) -> walks W sg c w l w'.
Proof.
  induction k as [|k IH]; intros c t w w' t' l T H; cbn [apply] in H; (destruct c as [n|]; [|injection H as <- <- <-; constructor]);
    (destruct (w_exit W w) eqn:X; [injection H as <- <- <-; apply w_exited; exact X|]); [discriminate|].
  pose proof (graph_nth n) as Gn. destruct (nth_error g n) as [d|] eqn:N; [|discriminate]. destruct (nth_error sg n) as [s|] eqn:Ns; [|contradiction].
  destruct (run_node W ltr old (S k) t d w) as [[[w1 t1] nx]| |] eqn:Rn; try discriminate. destruct (node_sound _ _ _ _ _ _ _ _ Gn T Rn) as [V T1].
  destruct (apply W ltr old g k t1 nx w1) as [[[w2 t2] l2]| |] eqn:Ap; try discriminate. injection H as <- <- <-. econstructor; eauto.
Qed.
Lemma apply_complete c w l w' : walks W sg c w l w' -> forall t, 4 <= length (dt t) -> exists k0, forall k, k0 <= k -> exists t', apply W ltr old g k t c w = Done (w', t', l).
Proof.
  induction 1 as [w|n w X|n s w w' nx l w'' X N V _ IH]; intros t T.
  - exists 0. intros k _. exists t. destruct k; reflexivity.
  - exists 0. intros k _. exists t. destruct k; cbn [apply]; rewrite X; reflexivity.
  - pose proof (graph_nth n) as Gn. rewrite N in Gn. destruct (nth_error g n) as [d|] eqn:Ng; [|contradiction].
    destruct (node_complete _ _ t _ _ _ Gn T V) as (k1 & t1 & K1). destruct (node_sound _ _ _ _ _ _ _ _ Gn T (K1 _ (le_n _))) as [_ T1]. destruct (IH t1 T1) as [k2 K2].
    exists (S (k1 + k2)). intros k Hk. destruct k as [|k]; [lia|]. destruct (K2 k ltac:(lia)) as [t' Ap]. exists t'. cbn [apply]. rewrite X, Ng, (K1 (S k) ltac:(lia)), Ap. reflexivity.
Qed.
Lemma visit_fun s w w1 n1 : visit W s w w1 n1 -> forall w2 n2, visit W s w w2 n2 -> w1 = w2 /\ n1 = n2.
Proof. intros V w2 n2 V2. destruct V; inversion V2; subst; try (split; congruence). match goal with A : performs _ _ _ _ _ _, B : performs _ _ _ _ _ _ |- _ => assert (Q := performs_fun _ _ _ _ _ _ A _ B) end. split; congruence. Qed.
Lemma walks_fun c w l w' : walks W sg c w l w' -> forall l2 w2, walks W sg c w l2 w2 -> l = l2 /\ w' = w2.
Proof.
  induction 1 as [w|n w X|n s w w' nx l w'' X N V _ IH]; intros l2 w2 H2; inversion H2; subst; try (split; congruence).
  match goal with A : nth_error sg n = Some ?nd, B : visit W ?nd w _ _, D : walks W sg _ _ _ _ |- _ =>
    rewrite N in A; injection A as <-; destruct (visit_fun _ _ _ _ V _ _ B) as [<- <-]; destruct (IH _ _ D) as [-> ->] end. auto.
Qed.
End Pipe.
