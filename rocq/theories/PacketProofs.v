(** Proofs about packets *)
From Coq Require Import List Arith NArith Bool Lia Permutation.
From Verif Require Import PacketModel PacketSpec.
Import ListNotations.

Lemma look_drop {A} (l : list (nat * A)) v u : look (drop l v) u = if u =? v then None else look l u.
Proof.
  unfold drop. induction l as [|[i x] l IH]; cbn; [destruct (u =? v); reflexivity|].
  destruct (Nat.eqb_spec i v); cbn; [subst i; rewrite IH, (Nat.eqb_sym v u); destruct (u =? v); reflexivity|].
  destruct (Nat.eqb_spec i u); [subst i; destruct (Nat.eqb_spec u v); [contradiction|reflexivity]|exact IH].
Qed.
Lemma look_put {A} (l : list (nat * A)) v x u : look (put l v x) u = if u =? v then Some x else look l u.
Proof. unfold put. cbn. rewrite (Nat.eqb_sym v u), look_drop. destruct (u =? v); reflexivity. Qed.
Lemma drop_none {A} (l : list (nat * A)) v : look l v = None -> drop l v = l.
Proof.
  unfold drop. induction l as [|[i x] l IH]; cbn; [reflexivity|]. destruct (i =? v); [discriminate|]. cbn. intros H. rewrite IH; auto.
Qed.
Lemma drop_keys {A} (l : list (nat * A)) v : NoDup (map fst l) -> NoDup (map fst (drop l v)) /\ ~ In v (map fst (drop l v)).
Proof.
  intros N. split.
  - unfold drop. induction l as [|[i x] l IH]; cbn; [constructor|]. inversion N as [|? ? H1 H2]; subst. destruct (i =? v); cbn; [auto|].
    constructor; [|auto]. intros H. apply H1. clear - H. induction l as [|[j y] l IH]; cbn in *; [auto|]. destruct (j =? v); cbn in H; intuition.
  - unfold drop. rewrite in_map_iff. intros ([i x] & E & H). apply filter_In in H as [_ H]. cbn in *. subst. rewrite Nat.eqb_refl in H. discriminate.
Qed.
Lemma put_keys {A} (l : list (nat * A)) v x : NoDup (map fst l) -> NoDup (map fst (put l v x)).
Proof. intros N. destruct (drop_keys l v N). unfold put. cbn. constructor; auto. Qed.
Lemma look_perm {A} (l : list (nat * A)) v x : NoDup (map fst l) -> look l v = Some x -> Permutation l ((v, x) :: drop l v).
Proof.
  induction l as [|[i y] l IH]; cbn [look map fst]; intros N E; [discriminate|]. inversion N as [|? ? H1 H2]; subst.
  assert (D : drop ((i, y) :: l) v = if i =? v then drop l v else (i, y) :: drop l v) by (unfold drop; cbn; destruct (i =? v); reflexivity).
  rewrite D. destruct (Nat.eqb_spec i v).
  - injection E as ->. subst i. constructor. rewrite (drop_none l v); [auto|].
    clear - H1. induction l as [|[j z] l IH]; cbn in *; [reflexivity|]. destruct (Nat.eqb_spec j v); [intuition|auto].
  - eapply perm_trans; [apply perm_skip; apply IH; auto|apply perm_swap].
Qed.
Lemma nth_set {A} (l : list A) i x k : nth_error (set_nth l i x) k = if k =? i then match nth_error l i with Some _ => Some x | None => None end else nth_error l k.
Proof.
  revert i k. induction l as [|y l IH]; intros i k; [destruct i, k; cbn; try reflexivity; destruct (k =? i); reflexivity|].
  destruct i, k; cbn; try reflexivity. apply IH.
Qed.
Lemma len_set {A} (l : list A) i x : length (set_nth l i x) = length l.
Proof. revert i. induction l as [|y l IH]; intros [|i]; cbn; auto. Qed.
Lemma flat_set l c p : nth_error l c = Some p -> exists t, Permutation (flat_map free l) (free p ++ t) /\
  forall q, Permutation (flat_map free (set_nth l c q)) (free q ++ t).
Proof.
  revert c. induction l as [|y l IH]; intros [|c] E; cbn in E; try discriminate.
  - injection E as ->. exists (flat_map free l). cbn. split; auto.
  - destruct (IH c E) as (t & P & Q). exists (free y ++ t). cbn. split.
    + rewrite P. rewrite !app_assoc. apply Permutation_app_tail, Permutation_app_comm.
    + intros q. rewrite Q. rewrite !app_assoc. apply Permutation_app_tail, Permutation_app_comm.
Qed.

Notation holding := (nat * N * (nat * nat))%type.
Definition in_cxt (c : nat) (x : holding) : bool := fst (fst x) =? c.
(** What holds of the header vectors *)
Record PINV (H : list holding) (ps : list pool) (n : nat) : Prop := {
  pi_kind : Forall (fun x : holding => snd (snd x) = fst (fst x)) H;
  pi_pool : forall c p, nth_error ps c = Some p -> Forall (fun y => snd y = c) (free p) /\ count p = N.of_nat (length (filter (in_cxt c) H));
  pi_all : Permutation (map (fun x : holding => fst (snd x)) H ++ map fst (flat_map free ps)) (seq 0 n) }.

Lemma filter_perm {A} (f : A -> bool) l l' : Permutation l l' -> length (filter f l) = length (filter f l').
Proof. induction 1; cbn; try (destruct (f x)); try (destruct (f y)); cbn; lia. Qed.
Lemma PINV_perm H H' ps n : Permutation H H' -> PINV H ps n -> PINV H' ps n.
Proof.
  intros P [K Q R]. constructor.
  - rewrite Forall_forall in *. intros x I. apply K. eapply Permutation_in; [symmetry; exact P|exact I].
  - intros c p E. destruct (Q c p E) as [A B]. split; auto. rewrite B, (filter_perm _ _ _ P). reflexivity.
  - rewrite <- R. apply Permutation_app_tail, Permutation_map. symmetry. exact P.
Qed.
Lemma PINV_id c i i' x H ps n : PINV ((c, i, x) :: H) ps n -> PINV ((c, i', x) :: H) ps n.
Proof. intros [K Q R]. constructor; [inversion K; subst; constructor; auto| |exact R].
  intros c0 p E. destruct (Q c0 p E) as [A B]. split; [exact A|]. rewrite B. cbn [filter]. change (in_cxt c0 (c, i', x)) with (c =? c0). change (in_cxt c0 (c, i, x)) with (c =? c0). destruct (c =? c0); reflexivity.
Qed.
Lemma get_ok s c s' x H i : (N.of_nat (length H) + 1 < 2 ^ 64)%N -> PINV H (pools s) (next s) -> get_phv s c = Some (s', x) ->
  PINV ((c, i, x) :: H) (pools s') (next s') /\ vars s' = vars s /\ removed s' = removed s.
Proof.
  intros L [K Q R] E. unfold get_phv in E. destruct (nth_error (pools s) c) as [p|] eqn:Ep; [|discriminate].
  destruct (Q c p Ep) as [F C]. destruct (flat_set _ _ _ Ep) as (t & P1 & P2).
  assert (Lc : (count p + 1 < 2 ^ 64)%N).
  { rewrite C. assert (length (filter (in_cxt c) H) <= length H) by (clear; induction H as [|y H IH]; cbn; [lia|destruct (in_cxt c y); cbn; lia]). lia. }
  rewrite N.mod_small in E by exact Lc.
  assert (Cn : (count p + 1 = N.of_nat (S (length (filter (in_cxt c) H))))%N) by (rewrite C; lia).
  assert (Pool : forall q, Forall (fun y : nat * nat => snd y = c) (free q) -> count q = (count p + 1)%N -> snd x = c ->
    forall c' p', nth_error (set_nth (pools s) c q) c' = Some p' ->
      Forall (fun y => snd y = c') (free p') /\ count p' = N.of_nat (length (filter (in_cxt c') ((c, i, x) :: H)))).
  { intros q Fq Cq Kx c' p' E'. rewrite nth_set in E'. cbn [filter]. unfold in_cxt at 1. cbn [fst]. rewrite (Nat.eqb_sym c c').
    destruct (Nat.eqb_spec c' c); [subst c'; rewrite Ep in E'; injection E' as <-; split; auto; rewrite Cq, Cn; reflexivity|apply Q; exact E']. }
  destruct (free p) as [|y r] eqn:Ef; injection E as <- <-; cbn [pools next vars removed]; split; auto; constructor.
  - constructor; auto.
  - apply Pool; [constructor|reflexivity|reflexivity].
  - rewrite seq_S. cbn [Nat.add map snd fst app]. rewrite <- Permutation_cons_append. constructor. rewrite <- R. apply Permutation_app_head, Permutation_map.
    rewrite (P2 _), P1. reflexivity.
  - inversion F; subst. constructor; auto.
  - inversion F; subst. apply Pool; auto.
  - rewrite <- R. cbn [map snd fst app]. rewrite (Permutation_map fst (P2 _)), (Permutation_map fst P1). cbn [free app map].
    apply Permutation_middle.
Qed.
Lemma release_ok s c x s' H i : PINV ((c, i, x) :: H) (pools s) (next s) -> (N.of_nat (length H) + 1 < 2 ^ 64)%N -> release s c x = Some s' ->
  PINV H (pools s') (next s') /\ vars s' = vars s /\ removed s' = removed s.
Proof.
  intros [K Q R] L E. unfold release in E. destruct (nth_error (pools s) c) as [p|] eqn:Ep; [|discriminate]. injection E as <-.
  cbn [pools next vars removed]. split; auto. destruct (Q c p Ep) as [F C]. destruct (flat_set _ _ _ Ep) as (t & P1 & P2).
  inversion K as [|? ? K1 K2]; subst. cbn [fst snd] in K1. constructor; auto.
  - intros c' p' E'. rewrite nth_set in E'. destruct (Nat.eqb_spec c' c).
    + subst c'. rewrite Ep in E'. injection E' as <-. cbn [free count]. split; [constructor; auto|].
      rewrite C. cbn [filter]. unfold in_cxt at 1. cbn [fst]. rewrite Nat.eqb_refl. cbn [length].
      assert (length (filter (in_cxt c) H) <= length H) by (clear; induction H as [|y H IH]; cbn; [lia|destruct (in_cxt c y); cbn; lia]).
      generalize dependent (length (filter (in_cxt c) H)). intros m Lm.
      change ((N.of_nat (S m) + (2 ^ 64 - 1)) mod 2 ^ 64 = N.of_nat m)%N.
      replace (N.of_nat (S m) + (2 ^ 64 - 1))%N with (N.of_nat m + 1 * 2 ^ 64)%N by lia.
      rewrite N.mod_add by lia. apply N.mod_small. lia.
    + destruct (Q c' p' E') as [A B]. split; auto. rewrite B. cbn [filter]. unfold in_cxt at 1. cbn [fst].
      destruct (Nat.eqb_spec c c'); [congruence|reflexivity].
  - rewrite <- R. cbn [map fst snd app]. rewrite (Permutation_map fst (P2 _)), (Permutation_map fst P1). cbn [free app map].
    symmetry. apply Permutation_middle.
Qed.

(** ** Header vectors and copy counts *)
Section Run.
Variable sg : list N -> N.
Notation step := (step sg). Notation run := (run sg). Notation births := (births sg).

Definition heldl (l : list (nat * var)) : list holding := flat_map (fun x => hold (snd x)) l.
Lemma heldl_perm l l' : Permutation l l' -> Permutation (heldl l) (heldl l').
Proof. intros P. unfold heldl. apply Permutation_flat_map. exact P. Qed.
Lemma heldl_look l v x : NoDup (map fst l) -> look l v = Some x -> Permutation (heldl l) (hold x ++ heldl (drop l v)).
Proof. intros N E. exact (heldl_perm _ _ (look_perm _ _ _ N E)). Qed.
Lemma heldl_put l v x : heldl (put l v x) = hold x ++ heldl (drop l v).
Proof. reflexivity. Qed.
Lemma drop_put {A} (l : list (nat * A)) v w x : v <> w -> drop (put l v x) w = (v, x) :: drop (drop l v) w.
Proof. intros N. unfold put, drop at 1. cbn [filter fst]. destruct (Nat.eqb_spec v w); [contradiction|reflexivity]. Qed.

Definition pid_in (i : N) (x : holding) : bool := N.eqb (snd (fst x)) i.
Definition alive (i : N) (l : list holding) : nat := length (filter (pid_in i) l).
Definition gone (i : N) (l : list N) : nat := length (filter (N.eqb i) l).
Record INV (s : st) (k : nat) (b : list N) : Prop := {
  i_keys : NoDup (map fst (vars s));
  i_phv : PINV (heldl (vars s)) (pools s) (next s);
  i_len : length (heldl (vars s)) <= k;
  i_gone : forall i, gone i (removed s) + alive i (heldl (vars s)) = gone i b }.

Definition new_pid (s' : st) (o : op) : list N :=
  match o with
  | ONew w _ _ _ _ _ _ _ _ | OClone _ w _ _ | OCloneTo _ w _ _ _ => match look (vars s') w with Some x => [a_pid (v_att x)] | None => [] end
  | _ => []
  end.
Lemma births_cons s o r : births s (o :: r) = match step s o with Some (s', _) => new_pid s' o ++ births s' r | None => [] end.
Proof.
  cbn [PacketSpec.births]. destruct (step s o) as [[s' x]|]; [|reflexivity]. destruct o; cbn [new_pid app]; try reflexivity; destruct (look _ _); reflexivity.
Qed.
Lemma INV_more s k k' b : INV s k b -> k <= k' -> INV s k' b.
Proof. intros [A B C D] L. constructor; auto. lia. Qed.
Lemma gone_app i l l' : gone i (l ++ l') = gone i l + gone i l'.
Proof. unfold gone. rewrite filter_app, app_length. reflexivity. Qed.
Lemma alive_perm i l l' : Permutation l l' -> alive i l = alive i l'.
Proof. apply filter_perm. Qed.
Lemma alive_app i l l' : alive i (l ++ l') = alive i l + alive i l'.
Proof. unfold alive. rewrite filter_app, app_length. reflexivity. Qed.

(** Replacing what a variable holds by something that holds as much *)
Lemma keep s k b v x y : INV s k b -> look (vars s) v = Some x -> hold y = hold x -> INV (with_var s v y) k b.
Proof.
  intros [A B C D] E H. pose proof (heldl_look _ _ _ A E) as P.
  assert (Q : Permutation (heldl (vars s)) (heldl (put (vars s) v y))) by (rewrite heldl_put, H; exact P).
  constructor; cbn [with_var vars pools next removed].
  - apply put_keys; auto.
  - eapply PINV_perm; eauto.
  - rewrite <- (Permutation_length Q). auto.
  - intros i. rewrite <- (alive_perm i _ _ Q). auto.
Qed.

Definition N64 (k : nat) : Prop := (N.of_nat k + 1 < 2 ^ 64)%N.
Lemma N64_le a b : a <= b -> N64 b -> N64 a.
Proof. unfold N64. lia. Qed.

Lemma construct_ok s k b v c port pid cid ilen bs cap now s' : INV s k b -> N64 k ->
  construct sg s v c port pid cid ilen bs cap now = Some s' -> INV s' (S k) (b ++ [pid]) /\
  exists x, look (vars s') v = Some x /\ a_pid (v_att x) = pid.
Proof.
  intros [A B C D] L E. unfold construct in E. destruct (look (vars s) v) eqn:Ev; [discriminate|].
  destruct (get_phv s c) as [[s1 x]|] eqn:Eg; [|discriminate]. injection E as <-.
  destruct (get_ok s c s1 x _ pid (N64_le _ _ C L) B Eg) as (P & V & R).
  assert (H : forall y, v_phv y = Some x -> a_cxt (v_att y) = c -> a_pid (v_att y) = pid -> heldl (vars (with_var s1 v y)) = (c, pid, x) :: heldl (vars s)).
  { intros y H1 H2 H3. cbn [with_var vars]. rewrite heldl_put, V, (drop_none _ _ Ev). unfold hold. rewrite H1, H2, H3. reflexivity. }
  split; [|eexists; split; [cbn [with_var vars]; rewrite look_put, Nat.eqb_refl; reflexivity|reflexivity]].
  constructor.
  - cbn [with_var vars]. rewrite V. apply put_keys; auto.
  - rewrite H by reflexivity. exact P.
  - rewrite H by reflexivity. cbn. lia.
  - intros i. rewrite H by reflexivity. cbn [with_var removed]. rewrite R. change ((c, pid, x) :: heldl (vars s)) with ([(c, pid, x)] ++ heldl (vars s)).
    rewrite alive_app, gone_app, <- (D i). unfold alive at 1, gone at 3. cbn [filter]. unfold pid_in. cbn [fst snd]. rewrite (N.eqb_sym pid i). destruct (i =? pid)%N; cbn [length]; lia.
Qed.

Lemma clone_ok s k b v w c cid now s' : INV s k b -> N64 k -> clone sg s v w c cid now = Some s' ->
  exists pid, INV s' (S k) (b ++ [pid]) /\ exists x, look (vars s') w = Some x /\ a_pid (v_att x) = pid.
Proof.
  intros H L E. unfold clone in E. destruct (look (vars s) v) as [[a [x|]]|]; try discriminate. exists (a_pid a). eapply construct_ok; eauto.
Qed.
Lemma destroy_ok s k b v s' : INV s k b -> N64 k -> destroy s v = Some s' -> INV s' k b.
Proof.
  intros [A B C D] L E. unfold destroy in E. destruct (look (vars s) v) as [[a [x|]]|] eqn:Ev; [| |discriminate];
    pose proof (heldl_look _ _ _ A Ev) as P; cbn [hold v_phv v_att app] in P; unfold hold in P; cbn [v_phv v_att app] in P.
  - destruct (release _ _ _) as [s1|] eqn:Er; [|discriminate]. injection E as <-.
    assert (L' : N64 (length (heldl (drop (vars s) v)))).
    { eapply N64_le; [|exact L]. pose proof (Permutation_length P) as Q. cbn in Q. lia. }
    destruct (release_ok (mkSt (drop (vars s) v) (pools s) (next s) (a_pid a :: removed s)) _ _ _ _ (a_pid a) (PINV_perm _ _ _ _ P B) L' Er) as (Q & V & R). cbn [vars removed] in V, R.
    constructor.
    + rewrite V. apply drop_keys; auto.
    + rewrite V. exact Q.
    + rewrite V. pose proof (Permutation_length P) as Z. cbn in Z. lia.
    + intros i. rewrite V, R, <- (D i). rewrite (alive_perm i _ _ P). unfold alive, gone. cbn [filter]. unfold pid_in at 2. cbn [fst snd]. rewrite (N.eqb_sym (a_pid a) i).
      destruct (i =? a_pid a)%N; cbn [length]; lia.
  - injection E as <-. constructor; cbn [vars pools next removed].
    + apply drop_keys; auto.
    + eapply PINV_perm; eauto.
    + rewrite <- (Permutation_length P). auto.
    + intros i. rewrite <- (alive_perm i _ _ P). auto.
Qed.
Lemma ctx_ok s k b v c s' : INV s k b -> N64 k -> change_context s v c = Some s' -> INV s' k b.
Proof.
  intros I L E. pose proof I as [A B C D]. unfold change_context in E. destruct (look (vars s) v) as [[a x]|] eqn:Ev; [|discriminate].
  destruct (a_cxt a =? c); [injection E as <-; auto|]. destruct x as [x|]; [|discriminate].
  destruct (release s (a_cxt a) x) as [s1|] eqn:Er; [|discriminate]. destruct (get_phv s1 c) as [[s2 y]|] eqn:Eg; [|discriminate]. injection E as <-.
  pose proof (heldl_look _ _ _ A Ev) as P. unfold hold in P; cbn [v_phv v_att app] in P.
  pose proof (Permutation_length P) as Z. cbn in Z.
  assert (L' : N64 (length (heldl (drop (vars s) v)))) by (eapply N64_le; [|exact L]; lia).
  destruct (release_ok _ _ _ _ _ (a_pid a) (PINV_perm _ _ _ _ P B) L' Er) as (Q & V & R).
  destruct (get_ok _ _ _ _ _ (a_pid a) L' Q Eg) as (Q2 & V2 & R2).
  assert (H : forall z, v_phv z = Some y -> a_cxt (v_att z) = c -> a_pid (v_att z) = a_pid a ->
    heldl (vars (with_var s2 v z)) = (c, a_pid a, y) :: heldl (drop (vars s) v)).
  { intros z H1 H2 H3. cbn [with_var vars]. rewrite heldl_put, V2, V. unfold hold. rewrite H1, H2, H3. reflexivity. }
  constructor.
  - cbn [with_var vars]. rewrite V2, V. apply put_keys; auto.
  - rewrite H by reflexivity. exact Q2.
  - rewrite H by reflexivity. cbn. lia.
  - intros i. rewrite H by reflexivity. cbn [with_var removed]. rewrite R2, R, <- (D i), (alive_perm i _ _ P). unfold alive. cbn [filter]. change (pid_in i (c, a_pid a, y)) with (a_pid a =? i)%N.
    change (pid_in i (a_cxt a, a_pid a, x)) with (a_pid a =? i)%N. destruct (a_pid a =? i)%N; reflexivity.
Qed.
Lemma move_ok s k b v w s' : INV s k b -> move s v w = Some s' -> INV s' k b.
Proof.
  intros I E. pose proof I as [A B C D]. unfold move in E. destruct (look (vars s) v) as [[a x]|] eqn:Ev; [|discriminate].
  destruct (look (vars s) w) eqn:Ew; [discriminate|]. injection E as <-.
  assert (NE : v <> w) by congruence.
  assert (H : heldl (vars (with_var (with_var s v (mkVar a None)) w (mkVar (moved a) x))) = hold (mkVar a x) ++ heldl (drop (vars s) v)).
  { cbn [with_var vars]. rewrite heldl_put, drop_put by exact NE. rewrite (drop_none (drop (vars s) v) w); [reflexivity|].
    rewrite look_drop, Ew. destruct (w =? v); reflexivity. }
  pose proof (heldl_look _ _ _ A Ev) as P. constructor.
  - cbn [with_var vars]. apply put_keys, put_keys; auto.
  - rewrite H. eapply PINV_perm; eauto.
  - rewrite H, <- (Permutation_length P). auto.
  - intros i. rewrite H, <- (alive_perm i _ _ P). apply D.
Qed.
Lemma assign_ok s k b w v s' : INV s k b -> safe_assign s (OAssign w v) -> assign s w v = Some s' -> INV s' k b.
Proof.
  intros I G E. pose proof I as [A B C D]. unfold assign in E. destruct (look (vars s) w) as [[aw y]|] eqn:Ew; [|discriminate].
  destruct (look (vars s) v) as [[a x]|] eqn:Ev; [|discriminate]. destruct (Nat.eqb_spec w v) as [Eq|NE]; [injection E as <-; auto|].
  injection E as <-. cbn [safe_assign] in G. specialize (G a x aw).
  match goal with |- INV ?s' _ _ => set (s2 := s') end.
  set (T := heldl (drop (drop (vars s) v) w)).
  assert (P : Permutation (heldl (vars s)) (hold (mkVar a x) ++ hold (mkVar aw y) ++ T)).
  { rewrite (heldl_look _ _ _ A Ev). apply Permutation_app_head. apply heldl_look; [apply drop_keys; auto|].
    rewrite look_drop, Ew. destruct (Nat.eqb_spec w v); [contradiction|reflexivity]. }
  assert (H : Permutation (heldl (vars s2)) (hold (mkVar a x) ++ hold (mkVar aw y) ++ T)).
  { subst s2. cbn [with_var vars]. rewrite heldl_put, drop_put by congruence. change (heldl (?z :: ?l)) with (hold (snd z) ++ heldl l). fold T. cbn [snd].
    unfold hold. cbn [v_phv v_att assigned a_cxt a_pid].
    destruct y as [y|]; [destruct (G y Ev Ew) as [G1 G2]; rewrite G1, G2|]; reflexivity. }
  assert (Q : Permutation (heldl (vars s)) (heldl (vars s2))) by (rewrite H; exact P).
  constructor.
  - subst s2. cbn [with_var vars]. apply put_keys, put_keys; auto.
  - eapply PINV_perm; eauto.
  - rewrite <- (Permutation_length Q). auto.
  - intros i. rewrite <- (alive_perm i _ _ Q). apply D.
Qed.
Lemma setter_cp a x a' : setter a x = Some a' -> a_cxt a' = a_cxt a /\ a_pid a' = a_pid a.
Proof. destruct a, x; cbn; intros E; try (injection E as <-; auto; fail); match type of E with (if ?b then _ else _) = _ => destruct b end; try discriminate; injection E as <-; auto. Qed.

Lemma step_ok s k b o s' x : INV s k b -> N64 k -> safe_assign s o -> step s o = Some (s', x) -> INV s' (S k) (b ++ new_pid s' o).
Proof.
  intros I L G E. destruct o; cbn [PacketModel.step new_pid] in *.
  - destruct (_ <=? _); [|discriminate]. destruct (construct _ _ _ _ _ _ _ _ _ _ _) eqn:Q; [|discriminate]. injection E as <- <-.
    destruct (construct_ok _ _ _ _ _ _ _ _ _ _ _ _ _ I L Q) as (R & y & -> & ->). exact R.
  - destruct (destroy s v) eqn:Q; [|discriminate]. injection E as <- <-. rewrite app_nil_r. eapply INV_more; [eapply destroy_ok; eauto|lia].
  - destruct (look (vars s) v) as [[a y]|]; [|discriminate]. destruct (clone _ _ _ _ _ _ _) eqn:Q; [|discriminate]. injection E as <- <-.
    destruct (clone_ok _ _ _ _ _ _ _ _ _ I L Q) as (pid & R & z & -> & ->). exact R.
  - destruct (clone _ _ _ _ _ _ _) eqn:Q; [|discriminate]. injection E as <- <-.
    destruct (clone_ok _ _ _ _ _ _ _ _ _ I L Q) as (pid & R & z & -> & ->). exact R.
  - destruct (move s v w) eqn:Q; [|discriminate]. injection E as <- <-. rewrite app_nil_r. eapply INV_more; [eapply move_ok; eauto|lia].
  - destruct (assign s w v) eqn:Q; [|discriminate]. injection E as <- <-. rewrite app_nil_r. eapply INV_more; [eapply assign_ok; eauto|lia].
  - destruct (change_context s v c) eqn:Q; [|discriminate]. injection E as <- <-. rewrite app_nil_r. eapply INV_more; [eapply ctx_ok; eauto|lia].
  - destruct (look (vars s) v) as [[a p]|] eqn:Ev; [|discriminate]. destruct (setter a s0) as [a'|] eqn:Q; [|discriminate]. injection E as <- <-. rewrite app_nil_r.
    destruct (setter_cp _ _ _ Q) as [C1 C2]. eapply INV_more; [eapply keep; [exact I|exact Ev|]|lia]. unfold hold. cbn. rewrite C1, C2. reflexivity.
  - destruct (look (vars s) v) as [[a p]|]; [|discriminate]. injection E as <- <-. rewrite app_nil_r. eapply INV_more; eauto.
Qed.
Lemma run_ok : forall os s k b s' xs, INV s k b -> N64 (k + length os) -> along sg safe_assign s os -> run s os = Some (s', xs) ->
  INV s' (k + length os) (b ++ births s os).
Proof.
  induction os as [|o r IH]; intros s k b s' xs I L G E; cbn [PacketModel.run] in E.
  - injection E as <- <-. rewrite app_nil_r. cbn. eapply INV_more; [exact I|lia].
  - rewrite births_cons. destruct G as [G1 G2]. destruct (step s o) as [[s1 x]|] eqn:Es; [|discriminate]. destruct (run s1 r) as [[s2 ys]|] eqn:Er; [|discriminate].
    injection E as <- <-. cbn [length] in L.
    pose proof (step_ok _ _ _ _ _ _ I ltac:(eapply N64_le; [|exact L]; lia) G1 Es) as I1.
    rewrite app_assoc. cbn [length]. replace (k + S (length r)) with (S k + length r) by lia. eapply IH; eauto. eapply N64_le; [|exact L]. lia.
Qed.
Lemma INV_start n : INV (start n) 0 [].
Proof.
  constructor; cbn; auto; [constructor|]. constructor; [constructor| |].
  - intros c p E. assert (p = mkPool [] 0); [|subst; cbn; auto]. apply nth_error_In, repeat_spec in E. exact E.
  - cbn. replace (flat_map free (repeat (mkPool [] 0) n)) with (@nil (nat * nat)); [constructor|]. induction n; cbn; auto.
Qed.
End Run.
