(** Proofs about counters. *)
From Coq Require Import List Arith NArith Bool Lia Permutation.
From Verif Require Import Base CounterModel CounterSpec.
Import ListNotations.

Definition mcell (m : micro) : cell := match m with MAdd a _ | MSet a _ | MGet a => a end.

Lemma cell_eqb_eq a b : cell_eqb a b = true <-> a = b.
Proof.
  destruct a as [i x], b as [j y]. unfold cell_eqb; cbn. rewrite andb_true_iff, Nat.eqb_eq, Bool.eqb_true_iff.
  split; [intros [-> ->]; auto|intros [= -> ->]; auto].
Qed.
Lemma put_eq f a v : put f a v a = v.
Proof. unfold put. rewrite (proj2 (cell_eqb_eq a a) eq_refl). auto. Qed.
Lemma put_neq f a v b : b <> a -> put f a v b = f b.
Proof. intros H. unfold put. destruct (cell_eqb b a) eqn:E; auto. apply cell_eqb_eq in E. congruence. Qed.

(** What an atomic operation does is what the call means. *)
Definition meaning (c : call) (m : micro) : Prop :=
  match m with
  | MAdd a n => adds c a = n /\ sets c a = None
  | MSet a v => sets c a = Some v
  | MGet a => adds c a = 0%N /\ sets c a = None
  end.

Lemma prog_all_meaning n m : In m (flat_map (fun i => [MSet (i, true) 0; MSet (i, false) 0])%N (seq 0 n)) ->
  meaning (CResetAll n) m /\ fst (mcell m) < n.
Proof.
  intros H. apply in_flat_map in H as (i & Hi & H). apply in_seq in Hi.
  assert (L : i < n) by lia. destruct H as [<-|[<-|[]]]; cbn [meaning mcell sets fst]; rewrite (proj2 (Nat.ltb_lt i n) L); auto.
Qed.
Lemma prog_meaning c m : In m (prog c) -> meaning c m.
Proof.
  destruct c; cbn; try (intros [<-|[<-|[]]]; cbn; rewrite ?Nat.eqb_refl; auto; fail).
  intros H. apply prog_all_meaning in H. apply H.
Qed.
Lemma prog_concerns c a : concerns c a <-> In a (map mcell (prog c)).
Proof.
  destruct a as [j x]. destruct c; cbn; try (split; [intros ->; destruct x; auto|intros [H|[H|[]]]; congruence]).
  split.
  - intros H. apply in_map_iff. exists (MSet (j, x) 0). split; auto. apply in_flat_map. exists j. split; [apply in_seq; lia|]. destruct x; cbn; auto.
  - intros H. apply in_map_iff in H as (m & E & H). apply prog_all_meaning in H as [_ H]. rewrite E in H. auto.
Qed.
Lemma prog_nodup c : NoDup (map mcell (prog c)).
Proof.
  destruct c; cbn; try (repeat constructor; cbn; intuition; congruence).
  generalize 0. induction n as [|n IH]; intros k; cbn; [constructor|].
  assert (G : forall x, In (k, x) (map mcell (flat_map (fun i => [MSet (i, true) 0; MSet (i, false) 0])%N (seq (S k) n))) -> False).
  { intros x H. apply in_map_iff in H as (m & E & H). apply in_flat_map in H as (i & Hi & H). apply in_seq in Hi.
    destruct H as [<-|[<-|[]]]; cbn in E; injection E; intros; lia. }
  constructor; [intros [H|H]; [congruence|eapply G; eauto]|]. constructor; [intros H; eapply G; eauto|]. apply IH.
Qed.

Section P.
Variable calls : list call.
Hypothesis OK : Forall call_ok calls.
Variable a : cell.

Notation value_after := (value_after calls).
Notation total := (total calls).

Lemma total_app l1 l2 : total a (l1 ++ l2) = (total a l1 + total a l2)%N.
Proof. unfold CounterSpec.total. induction l1; cbn; auto. rewrite IHl1. lia. Qed.
Lemma total_one i : total a [i] = adds_of calls a i.
Proof. cbn. lia. Qed.

Lemma add_mod_l x y : ((x mod 2 ^ 64 + y) mod 2 ^ 64 = (x + y) mod 2 ^ 64)%N.
Proof. apply N.add_mod_idemp_l. discriminate. Qed.

Lemma va_add l v i : value_after a l v -> sets_of calls a i = None ->
  value_after a (l ++ [i]) ((v + adds_of calls a i) mod 2 ^ 64)%N.
Proof.
  intros [N V|l1 k w l2 -> S N V] Z; subst v.
  - left; [|rewrite total_app, total_one; apply add_mod_l]. intros j H. apply in_app_or in H as [H|[<-|[]]]; auto.
  - eapply va_set with (l1 := l1) (i := k) (l2 := l2 ++ [i]); [rewrite <- app_assoc; auto|exact S| |].
    + intros j H. apply in_app_or in H as [H|[<-|[]]]; auto.
    + rewrite total_app, total_one, add_mod_l. f_equal. lia.
Qed.
Lemma va_same l v i : value_after a l v -> sets_of calls a i = None -> adds_of calls a i = 0%N ->
  value_after a (l ++ [i]) v.
Proof.
  intros H S Z. assert (L : (v < 2 ^ 64)%N) by (destruct H as [_ E|? ? ? ? _ _ _ E]; rewrite E; apply N.mod_lt; discriminate).
  pose proof (va_add l v i H S) as E. rewrite Z, N.add_0_r, N.mod_small in E; auto.
Qed.
Lemma sets_small i w : sets_of calls a i = Some w -> (w < 2 ^ 64)%N.
Proof.
  unfold sets_of. destruct (nth_error calls i) as [c|] eqn:E; [|discriminate].
  pose proof (proj1 (Forall_forall _ _) OK c (nth_error_In _ _ E)) as K.
  destruct c; cbn; intros H; try discriminate; destruct (_ : bool); try discriminate; injection H as <-; try reflexivity.
  cbn in K. destruct (snd a); tauto.
Qed.
Lemma va_put l i w : sets_of calls a i = Some w -> value_after a (l ++ [i]) w.
Proof.
  intros H. eapply va_set with (l1 := l) (l2 := []); eauto; [intros ? []|]. cbn.
  rewrite N.add_0_r, N.mod_small; auto. eapply sets_small; eauto.
Qed.

Lemma nodup_snoc {A} (l : list A) x : NoDup l -> ~ In x l -> NoDup (l ++ [x]).
Proof.
  intros N H. apply NoDup_rev in N. rewrite <- (rev_involutive (l ++ [x])). apply NoDup_rev.
  rewrite rev_app_distr. cbn. constructor; auto. rewrite <- in_rev. auto.
Qed.
(** ** Order *)
Lemma before_app_l {A} (h : list A) x y z : before h x y -> before (h ++ z) x y.
Proof. intros (h1 & h2 & h3 & ->). exists h1, h2, (h3 ++ z). rewrite <- !app_assoc. cbn. rewrite <- app_assoc. auto. Qed.
Lemma before_new {A} (l : list A) x y : In x l -> before (l ++ [y]) x y.
Proof. intros H. apply in_split in H as (l1 & l2 & ->). exists l1, l2, []. rewrite <- app_assoc. auto. Qed.
Lemma before_snoc_inv {A} (h : list A) x y z : before (h ++ [z]) x y -> before h x y \/ (y = z /\ In x h).
Proof.
  intros (h1 & h2 & h3 & E). destruct h3 as [|w h3] using rev_ind.
  - right. change (h1 ++ x :: h2 ++ [y]) with (h1 ++ (x :: h2) ++ [y]) in E. rewrite app_assoc in E.
    apply app_inj_tail in E as [-> ->]. split; auto. apply in_or_app. right. left. auto.
  - left. assert (E' : h ++ [z] = (h1 ++ x :: h2 ++ y :: h3) ++ [w]) by (rewrite E, <- !app_assoc; cbn; rewrite <- app_assoc; auto).
    apply app_inj_tail in E' as [-> _]. exists h1, h2, h3. auto.
Qed.
Lemma before_in_l {A} (h : list A) x y : before h x y -> In x h.
Proof. intros (h1 & h2 & h3 & ->). apply in_or_app. right. left. auto. Qed.

(** ** The invariant for cell [a] *)
(** Call [i] has acted on cell [a]. *)
Definition acted (th : list thread) (i : nat) : Prop :=
  exists c, nth_error calls i = Some c /\ concerns c a /\
    match nth_error th i with
    | Some (TRun rest _) => ~ In a (map mcell rest)
    | Some (TDone _) => True
    | _ => False
    end.
(** Call [i], on its way, is a suffix of its program; what a query read so far is explained. *)
Definition read_ok (l : list nat) (i : nat) (v : N) (x : bool) : Prop :=
  snd a = x -> exists l1 l2, l = l1 ++ i :: l2 /\ value_after a l1 v.
Definition thread_ok (l : list nat) (i : nat) (c : call) (t : thread) : Prop :=
  match t with
  | TIdle => True
  | TRun rest got =>
      (exists done, prog c = done ++ rest) /\
      (c = CQuery (fst a) ->
       (rest = prog c /\ got = []) \/
       (exists b, rest = [MGet (fst a, false)] /\ got = [b] /\ read_ok l i b true) \/
       (exists b p, rest = [] /\ got = [b; p] /\ read_ok l i b true /\ read_ok l i p false))
  | TDone got => c = CQuery (fst a) -> exists b p, got = [b; p] /\ read_ok l i b true /\ read_ok l i p false
  end.
Record INV (st : cstate) (l : list nat) : Prop := {
  i_len : length (cs_threads st) = length calls;
  i_nodup : NoDup l;
  i_in : forall i, In i l <-> acted (cs_threads st) i;
  i_val : value_after a l (cs_cells st a);
  i_thr : forall i c t, nth_error calls i = Some c -> nth_error (cs_threads st) i = Some t -> thread_ok l i c t;
  i_inv : forall i, In (EInv i) (cs_hist st) <-> (exists t, nth_error (cs_threads st) i = Some t /\ t <> TIdle);
  i_res : forall i g, In (ERes i g) (cs_hist st) <-> nth_error (cs_threads st) i = Some (TDone g);
  i_rt : forall i j g, before (cs_hist st) (ERes i g) (EInv j) -> In i l -> In j l -> before l i j }.

Lemma INV_init : INV (cinit calls) [].
Proof.
  assert (I : forall i t, nth_error (repeat TIdle (length calls)) i = Some t -> t = TIdle).
  { intros i t H. apply nth_error_In in H. eapply repeat_spec; eauto. }
  split; cbn.
  - apply repeat_length.
  - constructor.
  - intros i. split; [intros []|]. intros (c & A & B & C). cbn in C. destruct (nth_error (repeat TIdle (length calls)) i) as [t|] eqn:E; auto. apply I in E. subst t. auto.
  - apply va_start; [intros ? []|reflexivity].
  - intros i c t A B. apply I in B. subst t. exact Logic.I.
  - intros i. split; [intros []|]. intros (t & A & B). apply I in A. auto.
  - intros i g. split; [intros []|]. intros A. apply I in A. discriminate.
  - intros i j g (h1 & h2 & h3 & H). destruct h1; discriminate.
Qed.

Lemma read_ok_app l l' i v x : read_ok l i v x -> read_ok (l ++ l') i v x.
Proof. intros H E. destruct (H E) as (l1 & l2 & -> & V). exists l1, (l2 ++ l'). rewrite <- app_assoc. auto. Qed.
Lemma thread_ok_app l l' i c t : thread_ok l i c t -> thread_ok (l ++ l') i c t.
Proof.
  destruct t as [|rest got|got]; cbn; auto.
  - intros [A B]. split; auto. intros Q. destruct (B Q) as [C|[(b & X & Y & Z)|(b & p & X & Y & Z & W)]]; auto.
    + right; left. exists b. auto using read_ok_app.
    + right; right. exists b, p. auto using read_ok_app.
  - intros A Q. destruct (A Q) as (b & p & X & Y & Z). exists b, p. auto using read_ok_app.
Qed.

Lemma nth_set_case (th : list thread) i j t u : i < length th -> nth_error (list_set th i t) j = Some u ->
  (j = i /\ u = t) \/ (j <> i /\ nth_error th j = Some u).
Proof.
  intros L H. destruct (Nat.eq_dec j i) as [->|N].
  - rewrite nth_error_list_set_eq in H by auto. injection H as <-. auto.
  - rewrite nth_error_list_set_neq in H by auto. auto.
Qed.

(** A step of call [i] that leaves cell [a] alone. *)
Lemma step_ok st l i : INV st l -> exists l', INV (cstep calls st i) l'.
Proof.
  intros J. unfold cstep. destruct (nth_error (cs_threads st) i) as [t|] eqn:T; [|exists l; auto].
  assert (LI : i < length (cs_threads st)) by (apply nth_error_Some; congruence).
  destruct (nth_error calls i) as [c|] eqn:C; [|apply nth_error_None in C; rewrite (i_len _ _ J) in LI; lia].
  destruct J as [JL JN JI JV JT JV2 JR JRT].
  pose proof (JT i c t C T) as TO.
  destruct t as [|rest got|got].
  - (* the call starts *)
    exists l. split; cbn [cs_cells cs_threads cs_hist]; auto.
    + rewrite list_set_length; auto.
    + intros k. rewrite JI. unfold acted. destruct (Nat.eq_dec k i) as [->|N].
      * rewrite T, nth_error_list_set_eq by auto. split; intros (c' & A & B & D); [contradiction|]. exfalso. apply D.
        rewrite C in A. injection A as <-. apply prog_concerns. auto.
      * rewrite nth_error_list_set_neq by auto. tauto.
    + intros k c' u A B. apply nth_set_case in B; [|auto]; destruct B as [[-> ->]|[N B]]; [|eapply JT; eauto].
      rewrite C in A. injection A as <-. split; [exists []; auto|]. intros Q. left. auto.
    + intros k. rewrite in_app_iff. cbn [In]. rewrite JV2. destruct (Nat.eq_dec k i) as [->|N].
      * rewrite nth_error_list_set_eq by auto. split; [|auto]. intros _. eexists. split; [reflexivity|discriminate].
      * rewrite nth_error_list_set_neq by auto. split; [intros [H|[[= H]|[]]]; auto; congruence|auto].
    + intros k g. rewrite in_app_iff. cbn [In]. rewrite JR. destruct (Nat.eq_dec k i) as [->|N].
      * rewrite T, nth_error_list_set_eq by auto. split; [intros [H|[H|[]]]; discriminate|discriminate].
      * rewrite nth_error_list_set_neq by auto. split; [intros [H|[H|[]]]; auto; discriminate|auto].
    + intros k j g H. apply before_snoc_inv in H as [H|[[= ->] H]]; [eauto|].
      intros _ Jn. exfalso. apply JI in Jn as (c' & _ & _ & D). rewrite T in D. auto.
  - destruct TO as [[done PD] TQ]. destruct rest as [|m rest].
    + (* the call returns *)
      exists l. split; cbn [cs_cells cs_threads cs_hist]; auto.
      * rewrite list_set_length; auto.
      * intros k. rewrite JI. unfold acted. destruct (Nat.eq_dec k i) as [->|N].
        -- rewrite T, nth_error_list_set_eq by auto. cbn. split; intros (c' & A & B & D); exists c'; auto.
        -- rewrite nth_error_list_set_neq by auto. tauto.
      * intros k c' u A B. apply nth_set_case in B; [|auto]; destruct B as [[-> ->]|[N B]]; [|eapply JT; eauto].
        rewrite C in A. injection A as <-. intros Q. destruct (TQ Q) as [[H _]|[(b & H & _)|(b & p & _ & H)]].
        -- subst c. discriminate.
        -- discriminate.
        -- exists b, p. auto.
      * intros k. rewrite in_app_iff. cbn [In]. rewrite JV2. destruct (Nat.eq_dec k i) as [->|N].
        -- rewrite T, nth_error_list_set_eq by auto. split; intros _; [eexists; split; [reflexivity|discriminate]|].
           left. eexists. split; [reflexivity|discriminate].
        -- rewrite nth_error_list_set_neq by auto. split; [intros [H|[H|[]]]; auto; discriminate|auto].
      * intros k g. rewrite in_app_iff. cbn [In]. rewrite JR. destruct (Nat.eq_dec k i) as [->|N].
        -- rewrite T, nth_error_list_set_eq by auto. split; [intros [H|[[= ->]|[]]]; congruence|]. intros [= ->]. auto.
        -- rewrite nth_error_list_set_neq by auto. split; [intros [H|[[= H _]|[]]]; auto; congruence|auto].
      * intros k j g H. apply before_snoc_inv in H as [H|[H _]]; [eauto|discriminate].
    + (* an atomic operation *)
      assert (ND : NoDup (map mcell (done ++ m :: rest))) by (rewrite <- PD; apply prog_nodup).
      assert (MM : meaning c m) by (apply prog_meaning; rewrite PD; apply in_or_app; right; left; auto).
      assert (FR : ~ In (mcell m) (map mcell rest)).
      { rewrite map_app in ND. apply NoDup_remove_2 in ND. intros H. apply ND. apply in_or_app. auto. }
      assert (JV2' : forall got', forall k, In (EInv k) (cs_hist st) <->
        (exists t, nth_error (list_set (cs_threads st) i (TRun rest got')) k = Some t /\ t <> TIdle)).
      { intros got' k. rewrite JV2. destruct (Nat.eq_dec k i) as [->|N].
        - rewrite T, nth_error_list_set_eq by auto. split; intros _; eexists; (split; [reflexivity|discriminate]).
        - rewrite nth_error_list_set_neq by auto. tauto. }
      assert (JR' : forall got', forall k g, In (ERes k g) (cs_hist st) <-> nth_error (list_set (cs_threads st) i (TRun rest got')) k = Some (TDone g)).
      { intros got' k g. rewrite JR. destruct (Nat.eq_dec k i) as [->|N].
        - rewrite T, nth_error_list_set_eq by auto. split; discriminate.
        - rewrite nth_error_list_set_neq by auto. tauto. }
      destruct (do_micro (cs_cells st) m got) as [f got'] eqn:DM.
      destruct (cell_eqb (mcell m) a) eqn:EA.
      * (* on this cell *)
        apply cell_eqb_eq in EA.
        assert (CC : concerns c a) by (apply prog_concerns; rewrite PD, map_app; apply in_or_app; right; left; auto).
        assert (NI : ~ In i l).
        { intros H. apply JI in H as (c' & _ & _ & D). rewrite T in D. apply D. left. auto. }
        exists (l ++ [i]). split; cbn [cs_cells cs_threads cs_hist].
        -- rewrite list_set_length; auto.
        -- apply nodup_snoc; auto.
        -- intros k. rewrite in_app_iff. cbn [In]. rewrite JI. unfold acted. destruct (Nat.eq_dec k i) as [->|N].
           ++ rewrite nth_error_list_set_eq by auto. split; [|auto]. intros _. exists c. rewrite <- EA at 2. auto.
           ++ rewrite nth_error_list_set_neq by auto. intuition congruence.
        -- assert (SO : sets_of calls a i = sets c a) by (unfold sets_of; rewrite C; auto).
           assert (AO : adds_of calls a i = adds c a) by (unfold adds_of; rewrite C; auto).
           destruct m as [a' n|a' v|a']; cbn in EA, DM, MM; subst a'; injection DM as <- <-.
           ++ rewrite put_eq. destruct MM as [M1 M2]. rewrite <- M1, <- AO. apply va_add; congruence.
           ++ rewrite put_eq. apply va_put. congruence.
           ++ destruct MM as [M1 M2]. apply va_same; congruence.
        -- intros k c' u A B. apply nth_set_case in B; [|auto]; destruct B as [[-> ->]|[N B]]; [|apply thread_ok_app; eapply JT; eauto].
           rewrite C in A. injection A as <-. split; [exists (done ++ [m]); rewrite <- app_assoc; auto|].
           intros Q. destruct (TQ Q) as [[H ->]|[(b & H & -> & RB)|(b & p & H & _)]]; [| |discriminate].
           ++ subst c. cbn in H. injection H as -> ->. cbn in DM, EA. injection DM as <- <-.
              right; left. exists (cs_cells st (fst a, true)). split; [auto|]. split; [auto|]. intros _.
              exists l, []. split; auto. rewrite EA. auto.
           ++ injection H as -> ->. cbn in DM, EA. injection DM as <- <-.
              right; right. exists b, (cs_cells st (fst a, false)). split; [auto|]. split; [auto|]. split; [apply read_ok_app; auto|].
              intros _. exists l, []. split; auto. rewrite EA. auto.
        -- apply JV2'.
        -- apply JR'.
        -- intros k j g H. pose proof (before_in_l _ _ _ H) as HK. intros Ik Ij.
           rewrite in_app_iff in Ik, Ij. cbn [In] in Ik, Ij.
           assert (k <> i). { intros ->. apply JR in HK. congruence. }
           destruct Ik as [Ik|[Ik|[]]]; [|congruence].
           destruct Ij as [Ij|[Ij|[]]]; [apply before_app_l; eauto|]. subst j. apply before_new. auto.
      * (* on another cell *)
        assert (NE : mcell m <> a) by (intros E; apply cell_eqb_eq in E; congruence).
        exists l. split; cbn [cs_cells cs_threads cs_hist]; auto.
        -- rewrite list_set_length; auto.
        -- intros k. rewrite JI. unfold acted. destruct (Nat.eq_dec k i) as [->|N].
           ++ rewrite T, nth_error_list_set_eq by auto. cbn [map In]. split; intros (c' & A & B & D); exists c'; intuition.
           ++ rewrite nth_error_list_set_neq by auto. tauto.
        -- destruct m as [a' n|a' v|a']; cbn in NE, DM; injection DM as <- <-; rewrite ?put_neq by auto; auto.
        -- intros k c' u A B. apply nth_set_case in B; [|auto]; destruct B as [[-> ->]|[N B]]; [|eapply JT; eauto].
           rewrite C in A. injection A as <-. split; [exists (done ++ [m]); rewrite <- app_assoc; auto|].
           intros Q. destruct (TQ Q) as [[H ->]|[(b & H & -> & RB)|(b & p & H & _)]]; [| |discriminate].
           ++ subst c. cbn in H. injection H as -> ->. cbn in DM, NE. injection DM as <- <-.
              right; left. exists (cs_cells st (fst a, true)). split; [auto|]. split; [auto|]. intros X. exfalso. apply NE. destruct a; cbn in *; congruence.
           ++ injection H as -> ->. cbn in DM, NE. injection DM as <- <-.
              right; right. exists b, (cs_cells st (fst a, false)). split; [auto|]. split; [auto|]. split; [auto|].
              intros X. exfalso. apply NE. destruct a; cbn in *; congruence.
  - exists l. split; auto.
Qed.

Lemma run_ok sched : exists l, INV (crun calls sched) l.
Proof.
  unfold crun. assert (G : forall st l, INV st l -> exists l', INV (fold_left (cstep calls) sched st) l').
  { induction sched as [|i s IH]; intros st l J; cbn; eauto. destruct (step_ok st l i J) as [l' J']. eauto. }
  eapply G. apply INV_init.
Qed.

Lemma INV_lin st l : INV st l -> linearization calls (cs_hist st) a l.
Proof.
  intros [JL JN JI JV JT JV2 JR JRT]. split; auto.
  - intros i g c H C K. apply JI. exists c. apply JR in H. rewrite H. auto.
  - intros i H. apply JI in H as (c & A & B & D). split; [|eauto]. apply JV2. destruct (nth_error (cs_threads st) i) as [t|]; [|contradiction].
    exists t. split; auto. intros ->. auto.
  - intros i g Q H. apply JR in H. pose proof (JT i _ _ Q H eq_refl) as (b & p & -> & R1 & R2).
    unfold read_ok in *. exists b, p. destruct (snd a).
    + destruct (R1 eq_refl) as (l1 & l2 & A & B). exists l1, l2. auto.
    + destruct (R2 eq_refl) as (l1 & l2 & A & B). exists l1, l2. auto.
Qed.
End P.
