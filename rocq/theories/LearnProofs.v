(** The filter and the buffers waiting for acknowledgement *)
From Coq Require Import List Arith NArith ZArith Lia Bool Permutation Sorted.
From Verif Require Import Base LearnModel LearnSpec.
Import ListNotations.

Definition somes (l : list (option sample)) : list sample := flat_map (fun o => match o with Some x => [x] | None => [] end) l.
Definition live (B : list (N * list (option sample))) : list sample := flat_map (fun b => somes (snd b)) B.
Definition bufrel (old : N -> option fptrs) (f : list (nat * sample)) (b : N * list (option sample)) : Prop :=
  match somes (snd b) with
  | [] => old (fst b) = None
  | _ => exists fp, old (fst b) = Some fp /\ f_cnt fp = N.of_nat (length (somes (snd b))) /\ Forall2 (fun o a => forall x, o = Some x -> In (a, x) f) (snd b) (f_refs fp)
  end.
Record FI (f : list (nat * sample)) (nx : nat) (old : N -> option fptrs) (B : list (N * list (option sample))) : Prop := mkFI {
  fi_a : NoDup (map fst f); fi_s : NoDup (map snd f); fi_l : NoDup (live B); fi_in : forall x, In x (map snd f) <-> In x (live B);
  fi_nx : forall a x, In (a, x) f -> a < nx; fi_ids : NoDup (map fst B); fi_b : Forall (bufrel old f) B; fi_no : forall id, ~ In id (map fst B) -> old id = None }.

Lemma NoDup_app_l {A} (a b : list A) : NoDup (a ++ b) -> NoDup a.
Proof. induction a as [|x a IH]; cbn; intros D; [constructor|]. inversion D as [|? ? D1 D2]; subst. constructor; [intros I; apply D1, in_or_app; auto|auto]. Qed.
Lemma NoDup_app_r {A} (a b : list A) : NoDup (a ++ b) -> NoDup b.
Proof. induction a as [|x a IH]; cbn; intros D; [exact D|]. inversion D; auto. Qed.
Lemma NoDup_snoc {A} (a : list A) x : NoDup a -> ~ In x a -> NoDup (a ++ [x]).
Proof. intros D N. apply (Permutation_NoDup (l := x :: a)); [apply Permutation_cons_append|constructor; auto]. Qed.
Lemma somes_app a b : somes (a ++ b) = somes a ++ somes b. Proof. apply flat_map_app. Qed.
Lemma live_app a b : live (a ++ b) = live a ++ live b. Proof. apply flat_map_app. Qed.
Lemma somes_In l x : In x (somes l) <-> In (Some x) l.
Proof.
  unfold somes. rewrite in_flat_map. split; [intros ([y|] & I & J); cbn in J; [destruct J as [->|[]]; exact I|contradiction]|intros I; exists (Some x); split; [exact I|left; reflexivity]].
Qed.
Lemma somes_map l : somes (map Some l) = l. Proof. unfold somes. induction l as [|x l IH]; cbn [map flat_map app]; [reflexivity|rewrite IH; reflexivity]. Qed.
Lemma live_In B x : In x (live B) <-> exists b, In b B /\ In (Some x) (snd b).
Proof. unfold live. rewrite in_flat_map. split; intros (b & I & J); exists b; (split; [exact I|]); apply somes_In; exact J. Qed.
Lemma sample_eq_spec a b : reflect (a = b) (sample_eq a b).
Proof. unfold sample_eq. destruct (list_eq_dec N.eq_dec a b); constructor; auto. Qed.
Lemma FI_size f nx old B : FI f nx old B -> length f = length (live B).
Proof.
  intros F. rewrite <- (map_length snd f). apply Permutation_length. apply NoDup_Permutation; [exact (fi_s _ _ _ _ F)|exact (fi_l _ _ _ _ F)|exact (fi_in _ _ _ _ F)].
Qed.
Lemma NoDup_fst_inj {A B} (f : list (A * B)) a x y : NoDup (map fst f) -> In (a, x) f -> In (a, y) f -> x = y.
Proof.
  induction f as [|[a0 x0] f IH]; cbn; intros D I J; [contradiction|]. inversion D as [|? ? D1 D2]; subst. destruct I as [I|I], J as [J|J].
  - congruence.
  - injection I as -> ->. exfalso. apply D1. apply in_map_iff. exists (a, y). auto.
  - injection J as -> ->. exfalso. apply D1. apply in_map_iff. exists (a, x). auto.
  - auto.
Qed.
Lemma find_addr (f : list (nat * sample)) a x : NoDup (map fst f) -> In (a, x) f -> find (fun p => fst p =? a) f = Some (a, x).
Proof.
  intros D I. destruct (find (fun p => fst p =? a) f) as [[a' y]|] eqn:E.
  - apply find_some in E. destruct E as [J Q]. apply Nat.eqb_eq in Q. cbn in Q. subst a'. rewrite (NoDup_fst_inj f a x y D I J). reflexivity.
  - exfalso. pose proof (find_none _ _ E _ I) as Q. cbn in Q. rewrite Nat.eqb_refl in Q. discriminate.
Qed.
Lemma NoDup_map_filter {A B} (g : A -> B) (p : A -> bool) l : NoDup (map g l) -> NoDup (map g (filter p l)).
Proof.
  induction l as [|a l IH]; cbn; intros D; [constructor|]. inversion D as [|? ? D1 D2]; subst. destruct (p a); cbn; [constructor; [|auto]|auto].
  intros I. apply D1. apply in_map_iff in I. destruct I as (b & E & I). apply filter_In in I. apply in_map_iff. exists b. tauto.
Qed.
Lemma erase_ok (f : list (nat * sample)) a x : NoDup (map fst f) -> NoDup (map snd f) -> In (a, x) f ->
  exists f', erase_ref f a = Some f' /\ NoDup (map fst f') /\ NoDup (map snd f') /\ (forall c y, In (c, y) f' <-> In (c, y) f /\ y <> x).
Proof.
  intros D1 D2 I. unfold erase_ref. rewrite (find_addr f a x D1 I). eexists. split; [reflexivity|]. split; [apply NoDup_map_filter; auto|]. split; [apply NoDup_map_filter; auto|].
  intros c y. rewrite filter_In. cbn [snd]. destruct (sample_eq_spec y x); cbn [negb]; intuition congruence.
Qed.
Lemma somes_set l i x : nth_error l i = Some (Some x) -> Permutation (somes l) (x :: somes (list_set l i None)).
Proof.
  revert i. induction l as [|o l IH]; intros [|i] H; cbn in H; try discriminate.
  - injection H as ->. cbn. reflexivity.
  - cbn [list_set somes flat_map]. fold (somes l) (somes (list_set l i None)). rewrite (IH i H) at 1. apply Permutation_sym, Permutation_middle.
Qed.
Lemma list_set_out {A} (l : list A) i v : length l <= i -> list_set l i v = l.
Proof. revert i. induction l as [|a l IH]; intros [|i] H; cbn in *; auto; try lia. f_equal. apply IH. lia. Qed.
Lemma Forall2_nth {A B} (R : A -> B -> Prop) l m i a : Forall2 R l m -> nth_error l i = Some a -> exists b, nth_error m i = Some b /\ R a b.
Proof. intros F. revert i. induction F as [|x y l m Rxy F IH]; intros [|i] H; cbn in *; try discriminate; [injection H as ->; eauto|auto]. Qed.
Lemma Forall2_len {A B} (R : A -> B -> Prop) l m : Forall2 R l m -> length l = length m.
Proof. induction 1; cbn; congruence. Qed.
Lemma Forall2_set_l {A B} (R S : A -> B -> Prop) l m i v : Forall2 R l m -> (forall a b, R a b -> In a (list_set l i v) -> S a b) -> (forall b, S v b) -> Forall2 S (list_set l i v) m.
Proof.
  intros F. revert i. induction F as [|x y l m Rxy F IH]; intros [|i] H V; cbn [list_set] in *; try constructor; auto.
  - clear - F H. assert (G : forall a b, R a b -> In a l -> S a b) by (intros; apply H; cbn; auto). clear H. induction F; constructor; cbn in *; auto.
  - apply H; cbn; auto.
  - apply IH; auto. intros a b Rab I. apply H; cbn; auto.
Qed.

(** ** Acknowledging samples one by one *)
Lemma live_mid B1 id os B2 : live (B1 ++ (id, os) :: B2) = live B1 ++ somes os ++ live B2.
Proof. rewrite live_app. reflexivity. Qed.
Lemma all_acked_somes l : all_acked l <-> somes l = [].
Proof.
  split.
  - intros H. destruct (somes l) as [|x r] eqn:E; [reflexivity|]. assert (I : In x (somes l)) by (rewrite E; left; reflexivity). apply somes_In in I. discriminate (H _ I).
  - intros E [x|] I; [|reflexivity]. apply somes_In in I. rewrite E in I. contradiction.
Qed.
Lemma ack_loop_ok B1 id B2 refs ids : forall f os alive cnt,
  NoDup (map fst f) -> NoDup (map snd f) -> NoDup (live (B1 ++ (id, os) :: B2)) -> (forall x, In x (map snd f) <-> In x (live (B1 ++ (id, os) :: B2))) ->
  Forall2 (fun o a => forall x, o = Some x -> In (a, x) f) os refs -> cnt = N.of_nat (length (somes os)) -> (cnt < 2 ^ 64)%N -> alive = negb (cnt =? 0)%N -> ack_fits os ids ->
  exists f', let os' := fold_left ack_one ids os in
    ack_loop f refs cnt alive ids = Some (f', N.of_nat (length (somes os')), negb (N.of_nat (length (somes os')) =? 0)%N) /\
    NoDup (map fst f') /\ NoDup (map snd f') /\ NoDup (live (B1 ++ (id, os') :: B2)) /\ (forall x, In x (map snd f') <-> In x (live (B1 ++ (id, os') :: B2))) /\
    Forall2 (fun o a => forall x, o = Some x -> In (a, x) f') os' refs /\ (forall c y, In (c, y) f' <-> In (c, y) f /\ In y (live (B1 ++ (id, os') :: B2))) /\ length (somes os') <= length (somes os).
Proof.
  induction ids as [|i ids IH]; intros f os alive cnt D1 D2 D3 Eq F C Cb Al Fit; cbn [fold_left ack_loop].
  { exists f. cbn zeta. rewrite <- C, <- Al. split; [reflexivity|]. split; [exact D1|]. split; [exact D2|]. split; [exact D3|]. split; [exact Eq|]. split; [exact F|]. split; [|lia].
    intros c y. split; [|tauto]. intros I. split; [exact I|]. apply Eq. apply in_map_iff. exists (c, y). auto. }
  cbn [ack_fits] in Fit. destruct (Z.ltb_spec i 0) as [Ni|Pi].
  { replace (ack_one os i) with os by (unfold ack_one; rewrite (proj2 (Z.ltb_lt i 0)) by lia; reflexivity). apply IH; auto. }
  destruct Fit as (Na & Ex & Fit).
  assert (Al' : alive = true). { rewrite Al. apply negb_true_iff, N.eqb_neq. rewrite C. intros Z. apply Na. apply all_acked_somes. destruct (somes os); [reflexivity|cbn in Z; lia]. }
  rewrite Al'. cbn [negb].
  replace (ack_one os i) with (list_set os (Z.to_nat i) None) by (unfold ack_one; rewrite (proj2 (Z.ltb_ge i 0)) by lia; reflexivity).
  destruct (Nat.ltb_spec (Z.to_nat i) (length os)) as [L|L].
  - destruct (Ex L) as [x Hx]. destruct (Forall2_nth _ _ _ _ _ F Hx) as (a & Ha & Ia). rewrite Ha.
    destruct (erase_ok f a x D1 D2 (Ia x eq_refl)) as (f1 & E1 & D1' & D2' & In1). rewrite E1.
    pose proof (somes_set os _ x Hx) as P. set (os1 := list_set os (Z.to_nat i) None) in *.
    assert (PL : Permutation (live (B1 ++ (id, os) :: B2)) (x :: live (B1 ++ (id, os1) :: B2))).
    { rewrite !live_mid. rewrite P. cbn [app]. apply Permutation_sym, Permutation_middle. }
    pose proof (Permutation_NoDup PL D3) as D4. inversion D4 as [|? ? Nx D5]; subst x0 l.
    assert (Eq1 : forall y, In y (map snd f1) <-> In y (live (B1 ++ (id, os1) :: B2))).
    { intros y. split.
      - intros I. apply in_map_iff in I. destruct I as ((c & y') & <- & I). apply In1 in I. destruct I as [I Ny]. cbn [snd] in *.
        assert (J : In y' (live (B1 ++ (id, os) :: B2))) by (apply Eq, in_map_iff; exists (c, y'); auto). apply (Permutation_in _ PL) in J. destruct J as [J|J]; [congruence|exact J].
      - intros I. assert (J : In y (live (B1 ++ (id, os) :: B2))) by (apply (Permutation_in _ (Permutation_sym PL)); right; exact I). apply Eq, in_map_iff in J. destruct J as ((c & y') & <- & J). apply in_map_iff. exists (c, y'). split; [reflexivity|].
        apply In1. split; [exact J|]. cbn [snd] in I. intros ->. contradiction. }
    assert (F1 : Forall2 (fun o a => forall y, o = Some y -> In (a, y) f1) os1 refs).
    { apply (Forall2_set_l _ _ _ _ _ _ F); [|discriminate]. intros o c R I y ->. apply In1. split; [apply R; reflexivity|]. intros ->. apply Nx. rewrite live_mid. apply in_or_app. right. apply in_or_app. left. apply somes_In. exact I. }
    assert (C1 : ((cnt + (2 ^ 64 - 1)) mod 2 ^ 64)%N = N.of_nat (length (somes os1))).
    { apply Permutation_length in P. cbn [length] in P. rewrite C, P. replace (N.of_nat (S (length (somes os1))) + (2 ^ 64 - 1))%N with (N.of_nat (length (somes os1)) + 1 * 2 ^ 64)%N by lia.
      rewrite N.mod_add by discriminate. apply N.mod_small. lia. }
    rewrite C1. assert (Lt : (N.of_nat (length (somes os1)) < 2 ^ 64)%N) by (apply Permutation_length in P; cbn [length] in P; lia).
    destruct (IH f1 os1 _ _ D1' D2' D5 Eq1 F1 eq_refl Lt eq_refl Fit) as (f' & E' & G1 & G2 & G3 & G4 & G5 & G6 & G7). cbn zeta in *.
    exists f'. split; [exact E'|]. split; [exact G1|]. split; [exact G2|]. split; [exact G3|]. split; [exact G4|]. split; [exact G5|]. split; [|apply Permutation_length in P; cbn [length] in P; lia].
    intros c y. rewrite G6. split; [intros [I J]; apply In1 in I; tauto|]. intros [I J]. split; [|exact J]. apply In1. split; [exact I|]. intros ->.
    apply Nx. apply Eq1. apply G4 in J. apply in_map_iff in J. destruct J as ((c1 & y1) & E & J). cbn in E. subst y1. apply G6 in J. apply in_map_iff. exists (c1, x). split; [reflexivity|tauto].
  - rewrite (list_set_out os (Z.to_nat i) None L) in *. rewrite (proj2 (nth_error_None refs (Z.to_nat i))) by (rewrite <- (Forall2_len _ _ _ F); exact L).
    rewrite Al' in Al. apply IH; auto.
Qed.
Lemma bufrel_other old f f' b v id : fst b <> id -> (forall a x, In (a, x) f -> In x (somes (snd b)) -> In (a, x) f') -> bufrel old f b -> bufrel (old_put old id v) f' b.
Proof.
  intros N H. unfold bufrel, old_put. rewrite (proj2 (N.eqb_neq _ _) N). destruct (somes (snd b)) as [|y r] eqn:E; [auto|]. intros (fp & E1 & E2 & F). exists fp. split; [exact E1|]. split; [exact E2|].
  rewrite <- E in H. clear E E2. revert H. generalize (snd b), (f_refs fp), F. clear. intros l m F. induction F as [|o a l m R F IH]; intros H; constructor.
  - intros x ->. apply H; [apply R; reflexivity|]. cbn. auto.
  - apply IH. intros a' x I J. apply H; [exact I|]. cbn. apply in_or_app. auto.
Qed.
Lemma FI_split f nx old B1 id os B2 : FI f nx old (B1 ++ (id, os) :: B2) -> bufrel old f (id, os) /\ (forall b, In b B1 \/ In b B2 -> bufrel old f b /\ fst b <> id).
Proof.
  intros F. pose proof (fi_b _ _ _ _ F) as Fb. rewrite Forall_forall in Fb. split; [apply Fb, in_or_app; cbn; auto|]. intros b Hb. split; [apply Fb, in_or_app; cbn; tauto|].
  pose proof (fi_ids _ _ _ _ F) as D. rewrite map_app in D. cbn [map fst] in D. apply NoDup_remove_2 in D. intros <-. apply D. apply in_or_app. destruct Hb; [left|right]; apply in_map; auto.
Qed.
Lemma FI_ack f nx old B1 id os B2 ids : FI f nx old (B1 ++ (id, os) :: B2) -> all_acked os \/ ack_fits os ids -> (N.of_nat (length f) < 2 ^ 64)%N ->
  match old id with
  | None => fold_left ack_one ids os = os
  | Some fp => exists f' cnt alive, ack_loop f (f_refs fp) (f_cnt fp) true ids = Some (f', cnt, alive) /\
      FI f' nx (old_put old id (if alive then Some (mk_fp cnt (f_refs fp)) else None)) (B1 ++ (id, fold_left ack_one ids os) :: B2) /\ length f' <= length f
  end.
Proof.
  intros F Fit Lf. pose proof (FI_size _ _ _ _ F) as Sz. destruct (FI_split _ _ _ _ _ _ _ F) as [Bm Bo]. unfold bufrel in Bm. cbn [fst snd] in Bm. destruct (somes os) as [|x0 r0] eqn:Es.
  - rewrite Bm. assert (A : all_acked os) by (apply all_acked_somes; exact Es). clear - A. revert A. generalize os. induction ids as [|i ids IH]; intros l A; cbn [fold_left]; [reflexivity|].
    assert (E : ack_one l i = l). { unfold ack_one. destruct (i <? 0)%Z; [reflexivity|]. apply nth_error_ext. intros k. destruct (Nat.ltb_spec (Z.to_nat i) (length l)) as [L|L]; [|rewrite list_set_out by exact L; reflexivity].
      destruct (Nat.eq_dec k (Z.to_nat i)) as [->|Nk]; [|rewrite nth_error_list_set_neq by congruence; reflexivity]. rewrite nth_error_list_set_eq by exact L. destruct (nth_error l (Z.to_nat i)) as [o|] eqn:Q; [|apply nth_error_None in Q; lia].
      rewrite (A o (nth_error_In _ _ Q)). reflexivity. }
    rewrite E. apply IH. exact A.
  - destruct Bm as (fp & E1 & E2 & F2). rewrite E1. rewrite <- Es in E2.
    assert (Fit' : ack_fits os ids) by (destruct Fit as [A|A]; [apply all_acked_somes in A; congruence|exact A]).
    assert (Cb : (f_cnt fp < 2 ^ 64)%N). { rewrite E2. rewrite Sz, live_mid, !app_length in Lf. lia. }
    destruct (ack_loop_ok B1 id B2 (f_refs fp) ids f os true (f_cnt fp) (fi_a _ _ _ _ F) (fi_s _ _ _ _ F) (fi_l _ _ _ _ F) (fi_in _ _ _ _ F) F2 E2 Cb) as (f' & E' & G1 & G2 & G3 & G4 & G5 & G6 & G7); [rewrite E2, Es; reflexivity|exact Fit'|]. cbn zeta in *.
    set (os' := fold_left ack_one ids os) in *. exists f', (N.of_nat (length (somes os'))), (negb (N.of_nat (length (somes os')) =? 0)%N). split; [exact E'|].
    assert (FIx : FI f' nx (old_put old id (if negb (N.of_nat (length (somes os')) =? 0)%N then Some (mk_fp (N.of_nat (length (somes os'))) (f_refs fp)) else None)) (B1 ++ (id, os') :: B2)).
    { constructor; auto.
      - intros a x I. apply G6 in I. eapply (fi_nx _ _ _ _ F). apply I.
      - pose proof (fi_ids _ _ _ _ F) as D. rewrite map_app in *. exact D.
      - apply Forall_forall. intros b Ib. apply in_app_or in Ib. cbn in Ib. assert (Hb : In b B1 \/ In b B2 \/ b = (id, os')) by (destruct Ib as [Ib|[Ib|Ib]]; auto). destruct Hb as [Hb|[Hb| ->]].
        1, 2: (destruct (Bo b) as [Rb Nb]; [auto|]; apply (bufrel_other old f f' b _ id Nb); [|exact Rb]; intros a x I J; apply G6; split; [exact I|]; rewrite live_mid; rewrite !in_app_iff; rewrite !live_In; apply somes_In in J; eauto).
        unfold bufrel, old_put. cbn [fst snd]. rewrite N.eqb_refl. destruct (somes os') as [|y r] eqn:E4; [reflexivity|]. cbn [length]. rewrite (proj2 (N.eqb_neq _ _)) by lia. cbn [negb]. eexists. split; [reflexivity|]. split; [reflexivity|]. exact G5.
      - intros j Hj. unfold old_put. destruct (N.eqb_spec j id) as [->|Nj]; [exfalso; apply Hj; rewrite map_app; apply in_or_app; right; left; reflexivity|]. apply (fi_no _ _ _ _ F). rewrite map_app in *. exact Hj. }
    split; [exact FIx|]. rewrite (FI_size _ _ _ _ FIx), Sz, !live_mid, !app_length. lia.
Qed.

(** ** Acknowledging a whole buffer *)
Lemma erase_refs_ok ys : forall f refs, NoDup (map fst f) -> NoDup (map snd f) -> NoDup ys -> Forall2 (fun o a => forall x, o = Some x -> In (a, x) f) (map Some ys) refs ->
  exists f', erase_refs f refs = Some f' /\ NoDup (map fst f') /\ NoDup (map snd f') /\ (forall c y, In (c, y) f' <-> In (c, y) f /\ ~ In y ys).
Proof.
  induction ys as [|y ys IH]; intros f refs D1 D2 D3 F; inversion F as [|? a ? refs' R F']; subst; cbn [erase_refs].
  { exists f. repeat split; auto; tauto. }
  destruct (erase_ok f a y D1 D2 (R y eq_refl)) as (f1 & E1 & D1' & D2' & In1). rewrite E1. inversion D3 as [|? ? Ny D4]; subst.
  destruct (IH f1 refs' D1' D2' D4) as (f' & E' & G1 & G2 & G3).
  { assert (H : forall x, In x ys -> x <> y) by (intros x I ->; contradiction). clear - F' In1 H. remember (map Some ys) as os. revert ys Heqos H. induction F' as [|o b os rs R F IH]; intros ys Q H; [constructor|].
    destruct ys as [|z ys]; [discriminate|]. cbn in Q. injection Q as -> Q. constructor; [intros x E; injection E as <-; apply In1; split; [apply R; reflexivity|apply H; left; reflexivity]|]. eapply IH; [exact Q|]. intros x I. apply H. right. exact I. }
  exists f'. split; [exact E'|]. split; [exact G1|]. split; [exact G2|]. intros c x. rewrite G3, In1. cbn [In]. intuition congruence.
Qed.
Lemma somes_none os : somes (map (fun _ : option sample => None) os) = [].
Proof. induction os; cbn; auto. Qed.
Lemma all_some os : (forall o, In o os -> o <> None) -> os = map (@Some sample) (somes os).
Proof. induction os as [|[x|] os IH]; intros H; cbn; [reflexivity|f_equal; apply IH; intros; apply H; cbn; auto|exfalso; apply (H None); cbn; auto]. Qed.
Lemma FI_ack_buf f nx old B1 id os B2 : FI f nx old (B1 ++ (id, os) :: B2) ->
  all_acked os \/ (forall o, In o os -> o <> None) \/ (forall x, In x (live (B1 ++ (id, os) :: B2)) -> In (Some x) os) ->
  match old id with
  | None => map (fun _ => None) os = os
  | Some fp => exists f', (if (f_cnt fp =? N.of_nat (length f))%N then Some [] else erase_refs f (f_refs fp)) = Some f' /\
      FI f' nx (old_put old id None) (B1 ++ (id, map (fun _ => None) os) :: B2) /\ length f' <= length f
  end.
Proof.
  intros F Fit. pose proof (FI_size _ _ _ _ F) as Sz. destruct (FI_split _ _ _ _ _ _ _ F) as [Bm Bo]. unfold bufrel in Bm. cbn [fst snd] in Bm. destruct (somes os) as [|x0 r0] eqn:Es.
  - rewrite Bm. assert (A : all_acked os) by (apply all_acked_somes; exact Es). clear - A. induction os as [|o os IH]; [reflexivity|]. cbn. rewrite (A o (or_introl eq_refl)). f_equal. apply IH. intros p I. apply A. right. exact I.
  - destruct Bm as (fp & E1 & E2 & F2). rewrite E1. rewrite <- Es in E2.
    assert (Fin : forall f', NoDup (map fst f') -> NoDup (map snd f') -> (forall c y, In (c, y) f' <-> In (c, y) f /\ ~ In y (somes os)) ->
      FI f' nx (old_put old id None) (B1 ++ (id, map (fun _ => None) os) :: B2) /\ length f' <= length f).
    { intros f' G1 G2 G3. pose proof (fi_l _ _ _ _ F) as D. rewrite live_mid in D.
      assert (Dj : forall x, In x (live B1) \/ In x (live B2) -> ~ In x (somes os)).
      { intros x [I|I] J; [|].
        - clear - D I J. induction (live B1) as [|z l IH]; [contradiction|]. cbn in D. inversion D as [|? ? D1 D2]; subst. destruct I as [->|I]; [apply D1; rewrite !in_app_iff; auto|auto].
        - apply NoDup_app_r in D. clear - D I J. induction (somes os) as [|z l IH]; [contradiction|]. cbn in D. inversion D as [|? ? D1 D2]; subst. destruct J as [->|J]; [apply D1; rewrite in_app_iff; auto|auto]. }
      assert (X : FI f' nx (old_put old id None) (B1 ++ (id, map (fun _ => None) os) :: B2)).
      { constructor; auto.
        - rewrite live_mid, somes_none. cbn [app]. clear - D. induction (live B1) as [|z l IH]; cbn in *; [exact (NoDup_app_r _ _ D)|]. inversion D as [|? ? D1 D2]; subst. constructor; [|auto]. rewrite !in_app_iff in *. tauto.
        - intros x. rewrite live_mid, somes_none. cbn [app]. rewrite in_app_iff. split.
          + intros I. apply in_map_iff in I. destruct I as ((c & y) & <- & I). apply G3 in I. destruct I as [I J]. cbn [snd].
            assert (K : In y (live (B1 ++ (id, os) :: B2))) by (apply (fi_in _ _ _ _ F), in_map_iff; exists (c, y); auto). rewrite live_mid, !in_app_iff in K. tauto.
          + intros I. assert (K : In x (map snd f)) by (apply (fi_in _ _ _ _ F); rewrite live_mid, !in_app_iff; tauto). apply in_map_iff in K. destruct K as ((c & y) & E & K). cbn in E. subst y. apply in_map_iff. exists (c, x). split; [reflexivity|]. apply G3. split; [exact K|]. apply Dj. exact I.
        - intros a x I. apply G3 in I. eapply (fi_nx _ _ _ _ F). apply I.
        - pose proof (fi_ids _ _ _ _ F) as Di. rewrite map_app in *. exact Di.
        - apply Forall_forall. intros b Ib. apply in_app_or in Ib. cbn in Ib. assert (Hb : (In b B1 \/ In b B2) \/ b = (id, map (fun _ => None) os)) by (destruct Ib as [Ib|[Ib|Ib]]; auto). destruct Hb as [Hb| ->].
          + destruct (Bo b Hb) as [Rb Nb]. apply (bufrel_other old f f' b _ id Nb); [|exact Rb]. intros a x I J. apply G3. split; [exact I|]. apply Dj. rewrite !live_In. apply somes_In in J. destruct Hb; eauto.
          + unfold bufrel, old_put. cbn [fst snd]. rewrite N.eqb_refl, somes_none. reflexivity.
        - intros j Hj. unfold old_put. destruct (N.eqb_spec j id) as [->|Nj]; [reflexivity|]. apply (fi_no _ _ _ _ F). rewrite map_app in *. exact Hj. }
      split; [exact X|]. rewrite (FI_size _ _ _ _ X), Sz, !live_mid, somes_none, !app_length. cbn [length]. lia. }
    destruct (N.eqb_spec (f_cnt fp) (N.of_nat (length f))) as [Ec|Ec].
    + exists []. split; [reflexivity|]. apply Fin; [constructor|constructor|]. intros c y. cbn. split; [contradiction|]. intros [I J]. apply J.
      assert (K : In y (live (B1 ++ (id, os) :: B2))) by (apply (fi_in _ _ _ _ F), in_map_iff; exists (c, y); auto).
      rewrite E2, Sz, live_mid, !app_length in Ec. rewrite live_mid, !in_app_iff in K. destruct (live B1) as [|z1 l1]; [|cbn in Ec; lia]. destruct (live B2) as [|z2 l2]; [|cbn in Ec; lia]. cbn in K. tauto.
    + destruct Fit as [A|[A|A]]; [apply all_acked_somes in A; congruence| |].
      * pose proof (all_some os A) as Eo. pose proof (fi_l _ _ _ _ F) as D. rewrite live_mid in D. apply NoDup_app_r in D. apply NoDup_app_l in D. rewrite Eo in F2 at 1.
        destruct (erase_refs_ok (somes os) f (f_refs fp) (fi_a _ _ _ _ F) (fi_s _ _ _ _ F) D F2) as (f' & E' & G1 & G2 & G3). exists f'. split; [exact E'|]. apply Fin; auto.
      * exfalso. apply Ec. rewrite E2, Sz. f_equal. assert (K : Permutation (somes os) (live (B1 ++ (id, os) :: B2))).
        { pose proof (fi_l _ _ _ _ F) as D. apply NoDup_Permutation; [rewrite live_mid in D; apply NoDup_app_r in D; apply NoDup_app_l in D; exact D|exact D|]. intros x. split; [intros I; rewrite live_mid, !in_app_iff; auto|intros I; apply somes_In, A, I]. }
        apply Permutation_length. exact K.
Qed.

(** ** A new sample *)
Lemma FI_add f nx old C id os x : FI f nx old (C ++ match os with [] => [] | _ => [(id, map Some os)] end) -> ~ In id (map fst C) -> ~ In x (live (C ++ match os with [] => [] | _ => [(id, map Some os)] end)) -> (N.of_nat (length f) + 1 < 2 ^ 64)%N ->
  let fp := match old id with Some fp => fp | None => mk_fp 0 [] end in
  FI (f ++ [(nx, x)]) (S nx) (old_put old id (Some (mk_fp ((f_cnt fp + 1) mod 2 ^ 64)%N (f_refs fp ++ [nx])))) (C ++ [(id, map Some (os ++ [x]))]).
Proof.
  intros F Nid Nx Lf fp. set (B := C ++ match os with [] => [] | _ => [(id, map Some os)] end) in *. pose proof (FI_size _ _ _ _ F) as Sz.
  assert (LB : live B = live C ++ os). { unfold B. rewrite live_app. destruct os as [|o os]; [cbn; reflexivity|]. cbn [live flat_map snd]. rewrite somes_map, app_nil_r. reflexivity. }
  assert (LB' : live (C ++ [(id, map Some (os ++ [x]))]) = live B ++ [x]). { rewrite live_app, LB. cbn [live flat_map snd]. rewrite somes_map, app_nil_r, app_assoc. reflexivity. }
  assert (Fp : f_cnt fp = N.of_nat (length os) /\ Forall2 (fun o a => forall y, o = Some y -> In (a, y) f) (map Some os) (f_refs fp)).
  { unfold fp. destruct os as [|o os'].
    - assert (O : old id = None). { apply (fi_no _ _ _ _ F). unfold B. rewrite app_nil_r. exact Nid. } rewrite O. split; [reflexivity|constructor].
    - assert (Rb : bufrel old f (id, map Some (o :: os'))). { pose proof (fi_b _ _ _ _ F) as Fb. rewrite Forall_forall in Fb. apply Fb. unfold B. apply in_or_app. right. left. reflexivity. }
      unfold bufrel in Rb. cbn [fst snd] in Rb. rewrite somes_map in Rb. destruct Rb as (g & E1 & E2 & F2). rewrite E1. auto. }
  destruct Fp as [Fc F2].
  assert (Xf : ~ In x (map snd f)) by (intros I; apply Nx, (fi_in _ _ _ _ F), I).
  constructor.
  - rewrite map_app. cbn [map fst]. apply NoDup_snoc; [exact (fi_a _ _ _ _ F)|]. intros I. apply in_map_iff in I. destruct I as ((a & y) & E & I). cbn in E. subst a. pose proof (fi_nx _ _ _ _ F _ _ I). lia.
  - rewrite map_app. cbn [map snd]. apply NoDup_snoc; [exact (fi_s _ _ _ _ F)|exact Xf].
  - rewrite LB'. apply NoDup_snoc; [exact (fi_l _ _ _ _ F)|exact Nx].
  - intros y. rewrite LB', map_app, !in_app_iff. cbn [map snd]. rewrite (fi_in _ _ _ _ F y). reflexivity.
  - intros a y I. apply in_app_or in I. destruct I as [I|[I|[]]]; [pose proof (fi_nx _ _ _ _ F _ _ I); lia|injection I as <- _; lia].
  - pose proof (fi_ids _ _ _ _ F) as D. unfold B in D. rewrite map_app in *. cbn [map fst]. apply NoDup_snoc; [exact (NoDup_app_l _ _ D)|exact Nid].
  - apply Forall_app. split.
    + pose proof (fi_b _ _ _ _ F) as Fb. unfold B in Fb. apply Forall_app in Fb. destruct Fb as [Fb _]. rewrite Forall_forall in *. intros b Ib. apply bufrel_other with (f := f); [intros E; apply Nid; rewrite <- E; apply in_map; exact Ib| |exact (Fb b Ib)].
      intros a y I _. apply in_or_app. auto.
    + constructor; [|constructor]. unfold bufrel, old_put. cbn [fst snd]. rewrite N.eqb_refl, somes_map. destruct (os ++ [x]) as [|y r] eqn:E; [destruct os; discriminate|]. rewrite <- E. eexists. split; [reflexivity|]. cbn [f_cnt f_refs]. split.
      * rewrite Fc, N.mod_small; [rewrite app_length; cbn [length]; lia|]. rewrite Sz, LB, app_length in Lf. lia.
      * rewrite map_app. apply Forall2_app.
        -- clear - F2. induction F2 as [|o a l m R F IH]; constructor; auto. intros z ->. apply in_or_app. left. apply R. reflexivity.
        -- constructor; [|constructor]. intros z Ez. injection Ez as <-. apply in_or_app. right. left. reflexivity.
  - intros j Hj. unfold old_put. rewrite map_app, in_app_iff in Hj. cbn in Hj. destruct (N.eqb_spec j id) as [->|Nj]; [tauto|]. apply (fi_no _ _ _ _ F). unfold B. rewrite map_app, in_app_iff. destruct os; cbn; tauto.
Qed.
