(** The invariant of a learn list, and its preservation *)
From Coq Require Import List Arith NArith ZArith Lia Bool Permutation Sorted.
From Verif Require Import Base LearnModel LearnSpec LearnProofs.
Import ListNotations.

Definition closed (q : sl) (id : N) (tq : list sample) : list (N * list (option sample)) := s_bufs q ++ match tq with [] => [] | _ => [((id - 1)%N, map Some tq)] end.
Definition opened (id : N) (cur : list sample) : list (N * list (option sample)) := match cur with [] => [] | _ => [(id, map Some cur)] end.
Record Inv (n : N) (s : lst) (q : sl) (tq cur : list sample) : Prop := mkInv {
  iv_pend : s_pend q = tq ++ cur; iv_buf : l_buf s = concat cur; iv_n : l_n s = length cur; iv_ne : Forall (fun x => x <> []) (tq ++ cur);
  iv_ph : match l_ph s, s_ph q with
          | PIdle, SIdle => l_tmp s = concat tq /\ (tq <> [] -> l_ntmp s = length tq)
          | PTook k, STook => l_tmp s = concat tq /\ k = length tq /\ tq <> []
          | PSent, SSent => tq = [] /\ l_tmp s <> []
          | _, _ => False
          end;
  iv_id : (l_id s <= n)%N; iv_tq : tq <> [] -> (1 <= l_id s)%N;
  iv_cl : forall b, In b (s_bufs q) -> (fst b < match tq with [] => l_id s | _ => l_id s - 1 end)%N;
  iv_fi : FI (l_filter s) (l_next s) (l_old s) (closed q (l_id s) tq ++ opened (l_id s) cur);
  iv_fn : (N.of_nat (length (l_filter s)) <= n)%N;
  iv_w : s_wait q = l_wait s; iv_d : s_dest q = l_dest s; iv_t : s_timeout q = l_timeout s; iv_st : (l_started s <= s_latest q)%N }.
Definition Good (n : N) (s : lst) (q : sl) : Prop := exists tq cur, Inv n s q tq cur.

Lemma concat_nil (l : list sample) : Forall (fun x => x <> []) l -> concat l = [] -> l = [].
Proof. intros F E. destruct l as [|x l]; [reflexivity|]. inversion F; subst. cbn in E. apply app_eq_nil in E. destruct E. contradiction. Qed.
Lemma Forall_app_l {A} (P : A -> Prop) a b : Forall P (a ++ b) -> Forall P a. Proof. rewrite Forall_app. tauto. Qed.
Lemma Forall_app_r {A} (P : A -> Prop) a b : Forall P (a ++ b) -> Forall P b. Proof. rewrite Forall_app. tauto. Qed.

Lemma Inv_new max timeout : Inv 0 (l_new max timeout) (s_init timeout) [] [].
Proof.
  constructor; cbn; auto; try lia; try (intros; contradiction); try constructor; cbn; auto; try constructor; try tauto; try (intros; contradiction).
Qed.
Lemma Inv_mono n m s q tq cur : Inv n s q tq cur -> (n <= m)%N -> Inv m s q tq cur.
Proof. intros I L. destruct I. constructor; auto; lia. Qed.
Lemma out_live n s q tq cur x : Inv n s q tq cur -> (outstanding q x <-> In x (live (closed q (l_id s) tq ++ opened (l_id s) cur))).
Proof.
  intros I. unfold outstanding. rewrite (iv_pend _ _ _ _ _ I). unfold closed, opened. rewrite !live_app, !in_app_iff.
  assert (A : In x (live match tq with [] => [] | _ :: _ => [((l_id s - 1)%N, map Some tq)] end) <-> In x tq). { destruct tq as [|y tq]; [reflexivity|]. cbn [live flat_map snd]. rewrite somes_map, app_nil_r. reflexivity. }
  assert (B : In x (live match cur with [] => [] | _ :: _ => [(l_id s, map Some cur)] end) <-> In x cur). { destruct cur as [|y cur]; [reflexivity|]. cbn [live flat_map snd]. rewrite somes_map, app_nil_r. reflexivity. }
  rewrite A, B, live_In. tauto.
Qed.
(** Swapping, with nothing waiting to be sent *)
Lemma Inv_swap n s q cur : Inv n s q [] cur -> l_tmp s = [] -> (n + 1 < 2 ^ 64)%N -> l_ph s = PIdle -> Inv (n + 1) (swap s) q cur [].
Proof.
  intros I E Ln Ph. pose proof (iv_ph _ _ _ _ _ I) as P. rewrite Ph in P. destruct (s_ph q) eqn:Sp; try contradiction. destruct I as [I1 I2 I3 I4 _ I6 I7 I8 I9 I10 I11 I12 I13 I14].
  assert (Id : ((l_id s + 1) mod 2 ^ 64 = l_id s + 1)%N) by (apply N.mod_small; lia).
  constructor; cbn [swap l_buf l_n l_id l_filter l_next l_old l_tmp l_ntmp l_ph l_wait l_dest l_timeout l_started]; rewrite ?Id; auto; try lia.
  - rewrite app_nil_r. exact I1.
  - rewrite app_nil_r. exact I4.
  - rewrite Ph, Sp. auto.
  - intros b Hb. specialize (I8 b Hb). destruct cur; cbn [fst]; lia.
  - unfold closed, opened in *. rewrite !app_nil_r in *. replace (l_id s + 1 - 1)%N with (l_id s) by lia. exact I9.
Qed.
Ltac unf := cbn [swap set_wait set_ph set_filter set_timeout l_buf l_n l_id l_max l_started l_timeout l_filter l_next l_old l_tmp l_ntmp l_ph l_wait l_sig l_dest s_pend s_bufs s_wait s_ph s_dest s_timeout s_latest].
Lemma tmp_nil n s q tq cur : Inv n s q tq cur -> l_tmp s = [] -> tq = [] /\ l_ph s = PIdle.
Proof.
  intros I E. pose proof (iv_ph _ _ _ _ _ I) as P. pose proof (Forall_app_l _ _ _ (iv_ne _ _ _ _ _ I)) as Ne. destruct (l_ph s), (s_ph q); try contradiction.
  - split; [|reflexivity]. apply concat_nil; [exact Ne|]. destruct P as [P _]. congruence.
  - destruct P as (P & _ & N). exfalso. apply N. apply concat_nil; [exact Ne|congruence].
  - destruct P as [_ P]. contradiction.
Qed.
(** The wait set and the time of the last sample do not matter to the rest *)
Lemma Inv_wait n s q tq cur w g : Inv n s q tq cur -> Inv n (set_wait s w g) (mk_sl (s_pend q) (s_bufs q) w (s_ph q) (s_dest q) (s_timeout q) (s_latest q)) tq cur.
Proof. intros I. destruct I. constructor; unf; auto. Qed.
Lemma full_ok n s q tq cur t : Inv n s q tq cur -> (n + 1 < 2 ^ 64)%N -> exists s' b, process_full s t = (s', b) /\
  Good (n + 1) s' (mk_sl (s_pend q) (s_bufs q) (if b then t :: s_wait q else s_wait q) (s_ph q) (s_dest q) (s_timeout q) (s_latest q)).
Proof.
  intros I Ln. unfold process_full. destruct (l_tmp s) as [|c tmp] eqn:E.
  - destruct (tmp_nil _ _ _ _ _ I E) as [-> Ph]. exists (swap s), false. split; [reflexivity|]. exists cur, []. destruct q. exact (Inv_swap _ _ _ _ I E Ln Ph).
  - exists (set_wait s (t :: l_wait s) (l_sig s)), true. split; [reflexivity|]. exists tq, cur. rewrite (iv_w _ _ _ _ _ I). apply Inv_wait. eapply Inv_mono; [exact I|lia].
Qed.

Lemma step_add n s q t now y : Good n s q -> fits q (EAdd t now y) -> (n + 2 < 2 ^ 64)%N ->
  exists s' x, l_step s (EAdd t now y) = Some (s', x) /\ allowed q (EAdd t now y) x /\ Good (n + 2) s' (s_next q (EAdd t now y) x).
Proof.
  intros (tq & cur & I) [Nw Ny] Ln. cbn [l_step]. assert (Fr : existsb (Nat.eqb t) (l_wait s) = false).
  { apply not_true_is_false. intros E. apply existsb_exists in E. destruct E as (u & J & E). apply Nat.eqb_eq in E. subst u. apply Nw. rewrite (iv_w _ _ _ _ _ I). exact J. }
  rewrite Fr. cbn [negb]. unfold add_sample. destruct (existsb (fun p => sample_eq (snd p) y) (l_filter s)) eqn:Ex.
  - eexists. eexists. split; [reflexivity|]. split.
    + exists false, false. split; [reflexivity|]. split; [|discriminate]. split; [discriminate|]. intros No. exfalso. apply No. apply (out_live _ _ _ _ _ _ I). apply (fi_in _ _ _ _ (iv_fi _ _ _ _ _ I)).
      apply existsb_exists in Ex. destruct Ex as (p & J & E). destruct (sample_eq_spec (snd p) y) as [<-|]; [|discriminate]. apply in_map. exact J.
    + exists tq, cur. cbn [s_next]. destruct q. cbn in *. eapply Inv_mono; [exact I|lia].
  - assert (No : ~ outstanding q y).
    { intros O. apply (out_live _ _ _ _ _ _ I) in O. apply (fi_in _ _ _ _ (iv_fi _ _ _ _ _ I)) in O. apply in_map_iff in O. destruct O as (p & E & J).
      assert (X : existsb (fun p => sample_eq (snd p) y) (l_filter s) = true) by (apply existsb_exists; exists p; split; [exact J|]; destruct (sample_eq_spec (snd p) y); auto). congruence. }
    cbn zeta. set (fp := match l_old s (l_id s) with Some fp => fp | None => mk_fp 0 [] end).
    set (s1 := mk_l (l_buf s ++ y) _ _ _ _ _ _ _ _ _ _ _ _ _ _).
    set (q1 := mk_sl (s_pend q ++ [y]) (s_bufs q) (s_wait q) (s_ph q) (s_dest q) (s_timeout q) (N.max (s_latest q) now)).
    assert (I1 : Inv (n + 1) s1 q1 tq (cur ++ [y])).
    { pose proof (iv_fi _ _ _ _ _ I) as F. pose proof (iv_cl _ _ _ _ _ I) as Cl. pose proof (iv_fn _ _ _ _ _ I) as Fn.
      assert (Nid : ~ In (l_id s) (map fst (closed q (l_id s) tq))).
      { unfold closed. rewrite map_app, in_app_iff. intros [J|J].
        - apply in_map_iff in J. destruct J as (b & E & J). specialize (Cl b J). destruct tq; lia.
        - destruct tq as [|z tq]; [contradiction|]. cbn in J. destruct J as [J|[]]. pose proof (iv_tq _ _ _ _ _ I ltac:(discriminate)). lia. }
      pose proof (FI_add (l_filter s) (l_next s) (l_old s) (closed q (l_id s) tq) (l_id s) cur y F Nid) as A.
      assert (Nl : ~ In y (live (closed q (l_id s) tq ++ match cur with [] => [] | _ => [(l_id s, map Some cur)] end))) by (intros O; apply No; apply (out_live _ _ _ _ _ _ I); exact O).
      specialize (A Nl ltac:(lia)). cbn zeta in A. fold fp in A.
      destruct I as [J1 J2 J3 J4 J5 J6 J7 J8 J9 J10 J11 J12 J13 J14]. constructor; unfold s1, q1; unf; auto; try lia.
      - rewrite J1, app_assoc. reflexivity.
      - rewrite J2, concat_app. cbn. rewrite app_nil_r. reflexivity.
      - rewrite J3, app_length. reflexivity.
      - rewrite app_assoc. apply Forall_app. split; [exact J4|]. constructor; [exact Ny|constructor].
      - unfold opened. destruct (cur ++ [y]) eqn:Ec; [destruct cur; discriminate|]. exact A.
      - rewrite app_length. cbn [length]. lia. }
    assert (Al : forall b, allowed q (EAdd t now y) (OAdd true b)) by (intros b; exists true, b; repeat split; auto).
    destruct ((l_n s1 =? 1) && (1 <? l_max s1)) eqn:C1; [|destruct (l_max s1 <=? l_n s1) eqn:C2].
    + eexists. eexists. split; [reflexivity|]. split; [apply Al|]. exists tq, (cur ++ [y]). cbn [s_next]. eapply Inv_mono with (n := (n + 1)%N); [|lia].
      destruct I1 as [J1 J2 J3 J4 J5 J6 J7 J8 J9 J10 J11 J12 J13 J14]. constructor; unf; auto. lia.
    + destruct (full_ok _ _ _ _ _ t I1 ltac:(lia)) as (s2 & b & E & G). rewrite E. eexists. eexists. split; [reflexivity|]. split; [apply Al|]. cbn [s_next]. replace (n + 2)%N with (n + 1 + 1)%N by lia. exact G.
    + eexists. eexists. split; [reflexivity|]. split; [apply Al|]. exists tq, (cur ++ [y]). cbn [s_next]. eapply Inv_mono; [exact I1|lia].
Qed.

Lemma in_split_id (B : list (N * list (option sample))) id l : In (id, l) B -> NoDup (map fst B) -> exists B1 B2, B = B1 ++ (id, l) :: B2 /\ forall f, on_buf id f B = B1 ++ (id, f l) :: B2.
Proof.
  intros I D. apply in_split in I. destruct I as (B1 & B2 & ->). exists B1, B2. split; [reflexivity|]. intros f. unfold on_buf. rewrite map_app in *. cbn [map fst snd] in *. apply NoDup_remove_2 in D. rewrite N.eqb_refl.
  assert (H : forall L, ~ In id (map fst L) -> map (fun b : N * list (option sample) => if (fst b =? id)%N then (fst b, f (snd b)) else b) L = L).
  { induction L as [|b L IH]; intros N; [reflexivity|]. cbn in *. destruct (N.eqb_spec (fst b) id) as [E|_]; [exfalso; tauto|]. rewrite IH by tauto. reflexivity. }
  rewrite !H; [reflexivity| |]; intros J; apply D; rewrite in_app_iff; auto.
Qed.
Lemma on_buf_fst id f B : map fst (on_buf id f B) = map fst B.
Proof. unfold on_buf. rewrite map_map. apply map_ext. intros b. destruct (fst b =? id)%N; reflexivity. Qed.
Lemma Inv_ids n s q tq cur : Inv n s q tq cur -> NoDup (map fst (s_bufs q)).
Proof. intros I. pose proof (fi_ids _ _ _ _ (iv_fi _ _ _ _ _ I)) as D. unfold closed in D. rewrite !map_app in D. apply NoDup_app_l in D. apply NoDup_app_l in D. exact D. Qed.
Lemma on_buf_id B id f (l : list (option sample)) : In (id, l) B -> NoDup (map fst B) -> f l = l -> on_buf id f B = B.
Proof. intros I D E. destruct (in_split_id B id l I D) as (B1 & B2 & -> & H). rewrite H, E. reflexivity. Qed.
Lemma Inv_set_bufs n s q tq cur id f fl old : Inv n s q tq cur -> FI fl (l_next s) old (on_buf id f (s_bufs q) ++ (match tq with [] => [] | _ => [((l_id s - 1)%N, map Some tq)] end ++ opened (l_id s) cur)) -> length fl <= length (l_filter s) ->
  Inv n (set_filter s fl old) (mk_sl (s_pend q) (on_buf id f (s_bufs q)) (s_wait q) (s_ph q) (s_dest q) (s_timeout q) (s_latest q)) tq cur.
Proof.
  intros I F L. destruct I as [J1 J2 J3 J4 J5 J6 J7 J8 J9 J10 J11 J12 J13 J14]. constructor; unf; auto; try lia.
  - intros b Hb. unfold on_buf in Hb. apply in_map_iff in Hb. destruct Hb as (b0 & E & Hb). specialize (J8 b0 Hb). destruct (fst b0 =? id)%N; subst b; exact J8.
  - unfold closed. unf. rewrite <- app_assoc. exact F.
Qed.

Lemma step_ok n s q e : Good n s q -> fits q e -> (n + 2 < 2 ^ 64)%N -> exists s' x, l_step s e = Some (s', x) /\ allowed q e x /\ Good (n + 2) s' (s_next q e x).
Proof.
  intros G Fit Ln. destruct e as [t now y|t m|t|now| | |id ids|id| |x|d]; [exact (step_add _ _ _ _ _ _ G Fit Ln)| | | | | | | | | |]; destruct G as (tq & cur & I); cbn [fits] in Fit; cbn [l_step allowed].
  - assert (Fr : existsb (Nat.eqb t) (l_wait s) = false).
    { apply not_true_is_false. intros E. apply existsb_exists in E. destruct E as (u & J & E). apply Nat.eqb_eq in E. subst u. apply Fit. rewrite (iv_w _ _ _ _ _ I). exact J. }
    rewrite Fr. cbn [negb]. unfold set_max. set (s1 := mk_l _ _ _ m _ _ _ _ _ _ _ _ _ _ _). assert (I1 : Inv n s1 q tq cur) by (destruct I; constructor; auto).
    destruct ((0 <? l_n s) && (m <=? l_n s)).
    + destruct (full_ok _ _ _ _ _ t I1 ltac:(lia)) as (s2 & b & E & (tq2 & cur2 & G)). rewrite E. eexists. eexists. split; [reflexivity|]. split; [eauto|]. exists tq2, cur2. cbn [s_next]. eapply Inv_mono; [exact G|lia].
    + eexists. eexists. split; [reflexivity|]. split; [eauto|]. exists tq, cur. cbn [s_next]. destruct q. eapply Inv_mono; [exact I1|lia].
  - unfold wake. assert (Ex : existsb (Nat.eqb t) (l_wait s) = true) by (apply existsb_exists; exists t; split; [rewrite <- (iv_w _ _ _ _ _ I); exact Fit|apply Nat.eqb_refl]). rewrite Ex.
    destruct (l_tmp s) as [|c tmp] eqn:E.
    + eexists. eexists. split; [reflexivity|]. split; [eauto|]. destruct (tmp_nil _ _ _ _ _ I E) as [-> Ph]. exists cur, []. cbn [s_next]. rewrite (iv_w _ _ _ _ _ I). eapply Inv_mono with (n := (n + 1)%N); [|lia].
      apply Inv_swap; [apply Inv_wait; exact I|exact E|lia|exact Ph].
    + eexists. eexists. split; [reflexivity|]. split; [eauto|]. exists tq, cur. cbn [s_next]. rewrite (iv_w _ _ _ _ _ I). apply Inv_wait. eapply Inv_mono; [exact I|lia].
  - unfold take. pose proof (iv_ph _ _ _ _ _ I) as P. rewrite Fit in P. destruct (l_ph s) eqn:Ph; try contradiction. destruct P as [Pt Pn]. pose proof (iv_ne _ _ _ _ _ I) as Ne.
    destruct (l_tmp s) as [|c tmp] eqn:E.
    + destruct (tmp_nil _ _ _ _ _ I E) as [-> _]. pose proof (iv_pend _ _ _ _ _ I) as Pe. cbn [app] in Pe. pose proof (iv_n _ _ _ _ _ I) as Nn.
      destruct ((l_timeout s =? 0)%N || (l_n s =? 0) || (now <? l_started s + l_timeout s)%N) eqn:C.
      * eexists. eexists. split; [reflexivity|]. split.
        -- exists false. split; [reflexivity|]. split; [discriminate|]. intros Np T La. exfalso. pose proof (iv_st _ _ _ _ _ I). rewrite (iv_t _ _ _ _ _ I) in *. rewrite !orb_true_iff, N.eqb_eq, Nat.eqb_eq, N.ltb_lt in C. rewrite Pe in Np.
           destruct C as [[C|C]|C]; [lia| |lia]. rewrite Nn in C. destruct cur; [contradiction|discriminate].
        -- exists [], cur. cbn [s_next]. destruct q. eapply Inv_mono; [exact I|lia].
      * rewrite !orb_false_iff, Nat.eqb_neq in C. destruct C as [[_ C] _]. assert (Nc : cur <> []) by (intros ->; rewrite Nn in C; apply C; reflexivity).
        eexists. eexists. split; [reflexivity|]. split; [exists true; rewrite Pe; auto|]. exists cur, []. cbn [s_next]. pose proof (Inv_swap _ _ _ _ I E ltac:(lia) Ph) as J.
        destruct J as [J1 J2 J3 J4 J5 J6 J7 J8 J9 J10 J11 J12 J13 J14]. cbn [swap l_buf l_n l_id l_filter l_next l_old l_tmp l_ntmp l_ph l_wait l_dest l_timeout l_started] in *. constructor; unf; auto; try lia.
        rewrite (iv_buf _ _ _ _ _ I), (iv_n _ _ _ _ _ I). auto.
    + assert (Nt : tq <> []) by (intros ->; cbn in Pt; discriminate). eexists. eexists. split; [reflexivity|]. split; [exists true; split; [reflexivity|]; split; [|auto]; rewrite (iv_pend _ _ _ _ _ I); intros _ Z; apply app_eq_nil in Z; tauto|].
      exists tq, cur. cbn [s_next]. destruct I as [J1 J2 J3 J4 J5 J6 J7 J8 J9 J10 J11 J12 J13 J14]. constructor; unf; auto; try lia. rewrite E. split; [exact Pt|]. split; [apply Pn; exact Nt|exact Nt].
  - unfold send. pose proof (iv_ph _ _ _ _ _ I) as P. rewrite Fit in P. destruct (l_ph s) as [|k|] eqn:Ph; try contradiction. destruct P as (Pt & -> & Nt).
    pose proof (iv_tq _ _ _ _ _ I Nt) as L1. pose proof (iv_id _ _ _ _ _ I) as L2. pose proof (iv_pend _ _ _ _ _ I) as Pe.
    assert (Id : ((l_id s + (2 ^ 64 - 1)) mod 2 ^ 64 = l_id s - 1)%N). { replace (l_id s + (2 ^ 64 - 1))%N with (l_id s - 1 + 1 * 2 ^ 64)%N by lia. rewrite N.mod_add by discriminate. apply N.mod_small. lia. }
    assert (Fn : firstn (length tq) (s_pend q) = tq) by (rewrite Pe, firstn_app, Nat.sub_diag, firstn_all; cbn; apply app_nil_r).
    assert (Sn : skipn (length tq) (s_pend q) = cur) by (rewrite Pe, skipn_app, Nat.sub_diag, skipn_all; reflexivity).
    eexists. eexists. split; [reflexivity|]. split.
    + exists (l_id s - 1)%N, (length tq). rewrite Id, Fn, Pt, (iv_d _ _ _ _ _ I). split; [reflexivity|]. split; [rewrite Pe, app_length; destruct tq; [contradiction|cbn; lia]|]. intros b Hb. pose proof (iv_cl _ _ _ _ _ I b Hb) as X. destruct tq; [contradiction|exact X].
    + exists [], cur. cbn [s_next]. rewrite Id, Fn, Sn. pose proof (iv_ne _ _ _ _ _ I) as Ne0. destruct I as [J1 J2 J3 J4 J5 J6 J7 J8 J9 J10 J11 J12 J13 J14]. constructor; unf; auto; try lia.
      * exact (Forall_app_r _ _ _ J4).
      * split; [reflexivity|]. rewrite Pt. intros Z. apply Nt. apply concat_nil; [exact (Forall_app_l _ _ _ J4)|exact Z].
      * intros b Hb. apply in_app_or in Hb. destruct Hb as [Hb|[<-|[]]]; [specialize (J8 b Hb); destruct tq; lia|cbn; lia].
      * unfold closed in *. unf. destruct tq as [|z tq]; [contradiction|]. rewrite app_nil_r. exact J9.
  - unfold done. pose proof (iv_ph _ _ _ _ _ I) as P. rewrite Fit in P. destruct (l_ph s) as [|k|] eqn:Ph; try contradiction. destruct P as [-> Nt]. eexists. eexists. split; [reflexivity|]. split; [reflexivity|]. exists [], cur. cbn [s_next].
    destruct I as [J1 J2 J3 J4 J5 J6 J7 J8 J9 J10 J11 J12 J13 J14]. constructor; unf; auto; try lia. split; [reflexivity|]. intros X; exfalso; apply X; reflexivity.
  - destruct Fit as (l & Il & Fit). pose proof (Inv_ids _ _ _ _ _ I) as D. destruct (in_split_id _ _ _ Il D) as (B1 & B2 & Eb & On). pose proof (iv_fi _ _ _ _ _ I) as F. pose proof (iv_fn _ _ _ _ _ I) as Fn. unfold closed in F. rewrite Eb, <- !app_assoc in F. cbn [app] in F.
    set (B3 := B2 ++ match tq with [] => [] | _ :: _ => [((l_id s - 1)%N, map Some tq)] end ++ opened (l_id s) cur) in *.
    pose proof (FI_ack _ _ _ _ _ _ _ ids F Fit ltac:(lia)) as A. unfold ack. destruct (l_old s id) as [fp|].
    + destruct A as (f' & cnt & alive & E & F' & L). rewrite E. eexists. eexists. split; [reflexivity|]. split; [reflexivity|]. exists tq, cur. cbn [s_next]. eapply Inv_mono with (n := n); [|lia]. apply Inv_set_bufs; [exact I| |exact L].
      rewrite On, <- app_assoc. exact F'.
    + eexists. eexists. split; [reflexivity|]. split; [reflexivity|]. exists tq, cur. cbn [s_next]. match goal with |- context [on_buf id ?f (s_bufs q)] => rewrite (on_buf_id (s_bufs q) id f l Il D A) end. destruct q. eapply Inv_mono; [exact I|lia].
  - destruct Fit as (l & Il & Fit). pose proof (Inv_ids _ _ _ _ _ I) as D. destruct (in_split_id _ _ _ Il D) as (B1 & B2 & Eb & On). pose proof (iv_fi _ _ _ _ _ I) as F. pose proof (iv_fn _ _ _ _ _ I) as Fn. 
    assert (Fit' : all_acked l \/ (forall o, In o l -> o <> None) \/ (forall x, In x (live (closed q (l_id s) tq ++ opened (l_id s) cur)) -> In (Some x) l)).
    { destruct Fit as [H|[H|H]]; auto. right. right. intros x Hx. apply H. apply (out_live _ _ _ _ _ _ I). exact Hx. }
    unfold closed in F, Fit'. rewrite Eb, <- !app_assoc in F, Fit'. cbn [app] in F, Fit'.
    set (B3 := B2 ++ match tq with [] => [] | _ :: _ => [((l_id s - 1)%N, map Some tq)] end ++ opened (l_id s) cur) in *.
    pose proof (FI_ack_buf _ _ _ _ _ _ _ F Fit') as A. unfold ack_buffer. destruct (l_old s id) as [fp|].
    + destruct A as (f' & E & F' & L). rewrite E. eexists. eexists. split; [reflexivity|]. split; [reflexivity|]. exists tq, cur. cbn [s_next]. eapply Inv_mono with (n := n); [|lia]. apply Inv_set_bufs; [exact I| |exact L].
      rewrite On, <- app_assoc. exact F'.
    + eexists. eexists. split; [reflexivity|]. split; [reflexivity|]. exists tq, cur. cbn [s_next]. match goal with |- context [on_buf id ?f (s_bufs q)] => rewrite (on_buf_id (s_bufs q) id f l Il D A) end. destruct q. eapply Inv_mono; [exact I|lia].
  - destruct Fit as [Fp Fw]. unfold reset. pose proof (iv_ph _ _ _ _ _ I) as P. rewrite Fp in P. destruct (l_ph s) as [|k|] eqn:Ph; try contradiction. eexists. eexists. split; [reflexivity|]. split; [reflexivity|]. exists [], []. cbn [s_next].
    destruct I as [J1 J2 J3 J4 J5 J6 J7 J8 J9 J10 J11 J12 J13 J14]. constructor; unf; auto; try lia.
    + constructor.
    + rewrite Fp. split; [reflexivity|]. intros X; exfalso; apply X; reflexivity.
    + intros X; exfalso; apply X; reflexivity.
    + intros b [].
    + constructor; cbn; try constructor; try tauto; try (intros; contradiction); auto.
    + cbn [length]. lia.
  - eexists. eexists. split; [reflexivity|]. split; [reflexivity|]. exists tq, cur. cbn [s_next]. eapply Inv_mono with (n := n); [|lia]. destruct I; constructor; unf; auto.
  - unfold set_dest. pose proof (iv_ph _ _ _ _ _ I) as P. rewrite Fit in P. destruct (l_ph s) as [|k|] eqn:Ph; try contradiction. eexists. eexists. split; [reflexivity|]. split; [reflexivity|]. exists tq, cur. cbn [s_next]. eapply Inv_mono with (n := n); [|lia].
    destruct I; constructor; unf; auto. rewrite Fit. exact P.
Qed.
Lemma run_ok es : forall n s q s' xs, Good n s q -> l_run s es = Some (s', xs) -> all_fit q es xs -> (n + 2 * N.of_nat (length es) < 2 ^ 64)%N ->
  all_allowed q es xs /\ Good (n + 2 * N.of_nat (length es)) s' (s_after q es xs).
Proof.
  induction es as [|e es IH]; intros n s q s' xs G R F Ln; cbn [l_run] in R.
  - injection R as <- <-. cbn. split; [exact I|]. replace (n + 0)%N with n by lia. exact G.
  - destruct (l_step s e) as [[s1 x]|] eqn:E; [|discriminate]. destruct (l_run s1 es) as [[s2 ys]|] eqn:R2; [|discriminate]. injection R as <- <-. cbn [all_fit] in F. destruct F as [F1 F2]. cbn [length] in Ln.
    destruct (step_ok n s q e G F1 ltac:(lia)) as (s1' & x' & E' & A & G'). rewrite E in E'. injection E' as <- <-. cbn [all_allowed s_after length].
    destruct (IH _ _ _ _ _ G' R2 F2 ltac:(lia)) as [A2 G2]. split; [auto|]. replace (n + 2 * N.of_nat (S (length es)))%N with (n + 2 + 2 * N.of_nat (length es))%N by lia. exact G2.
Qed.
