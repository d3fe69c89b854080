(** Every schedule of the swap model is allowed by the specification. *)
From Coq Require Import List Arith Bool Lia.
From Verif Require Import SwapModel SwapSpec.
Import ListNotations.

Lemma nth_set_cx l i c k : nth_error (set_cx l i c) k = if k =? i then match nth_error l i with Some _ => Some c | None => None end else nth_error l k.
Proof.
  unfold set_cx. revert i k. induction l as [|x l IH]; intros i k.
  - rewrite firstn_nil, skipn_nil. destruct i, k; cbn; try reflexivity. destruct (k =? i); reflexivity.
  - destruct i, k; cbn; try reflexivity. exact (IH i k).
Qed.
Lemma len_set_cx l i c : length (set_cx l i c) = length l.
Proof. unfold set_cx. revert i. induction l as [|x l IH]; intros [|i]; cbn; auto. Qed.

Lemma seq_snoc i : seq 0 i ++ [i] = 0 :: seq 1 i.
Proof. symmetry. exact (seq_S i 0). Qed.

Section Proofs.
Context {J : Type}.
Variable enabled : bool.
Variable init : J -> bool.
Variable n : nat.
Hypothesis n_pos : 0 < n.
Notation step := (step enabled init).
Notation run := (run enabled init).
Notation accept := (@accept J enabled n).
Notation accepts := (@accepts J enabled n).
Notation st := (st J). Notation sp := (sp J). Notation sc := (sc J).

Definition holds_p (p : pc J) : bool := match p with PCtx _ _ _ | PWait _ _ _ | PSwp _ _ _ | PFac _ _ _ => true | _ => false end.
Definition holds_c (p : pc J) : bool :=
  match p with PTest b | PLock b | PCtx b _ _ | PWait b _ _ | PSwp b _ _ | PFac b _ _ => b | _ => false end.
Definition in_swap (p : pc J) : Prop := match p with PIdle | PLoad _ _ => False | _ => True end.
Definition in_ctx (i : nat) (l : list (nat * (nat * nat))) : nat := length (filter (fun x => fst (snd x) =? i) l).

Definition CX (s : st) (i : nat) (c : cx) (k : sc) : Prop :=
  nth_error (objs s) (c_live c) = Some (s_live k) /\
  (c_live c = c_rt c -> s_next k = None) /\
  (c_live c <> c_rt c -> exists j, s_next k = Some j /\ nth_error (objs s) (c_rt c) = Some j) /\
  c_ord c = s_req k /\ (c_ord c = true -> c_live c <> c_rt c) /\
  Forall (fun x => x = c_fac c) (c_free c) /\
  ((forall t b rc, pcs s t <> PFac b i rc) -> c_fac c = c_live c) /\
  c_cnt c = in_ctx i (pks s) /\ c_rt c < length (objs s).
Definition PK (s : st) (a : sp) (p : nat) : Prop :=
  match find_pk (pks s) p, s_pk a p with
  | Some (i, o), Some (i', j) => i' = i /\ nth_error (objs s) o = Some j /\ exists c, nth_error (cxs s) i = Some c /\ o = c_live c
  | None, None => True
  | _, _ => False
  end.
Definition cl (b : bool) : call J := if b then CSwap else CDo.
Definition dn (b : bool) : list nat := if b then seq 0 n else [].
Definition OPEN (s : st) (a : sp) (t : nat) : Prop :=
  match pcs s t with
  | PIdle => s_open a t = None
  | PLoad j i => i <= n /\ s_open a t = Some (mkOp (CLoad j) (seq 0 i) [] false)
  | PSwap i => i <= n /\ s_open a t = Some (mkOp CSwap (seq 0 i) [] false)
  | PTest b | PLock b => s_open a t = Some (mkOp (cl b) (dn b) [] false)
  | PCtx b i rc | PWait b i rc | PSwp b i rc => i <= n /\
      exists w, s_open a t = Some (mkOp (cl b) (dn b) w false) /\ (b = true -> s_calm a -> w = seq 0 i) /\ (rc = 0 <-> w <> [])
  | PFac b i rc => i < n /\
      exists w, s_open a t = Some (mkOp (cl b) (dn b) w false) /\ (b = true -> s_calm a -> w = seq 0 (S i)) /\ w <> []
  end.
Definition HALT (s : st) (t : nat) : Prop :=
  match pcs s t with
  | PWait b i rc => i < n
  | PSwp b i rc | PFac b i rc => exists c, nth_error (cxs s) i = Some c /\ c_cnt c = 0
  | _ => True
  end.
Definition ords (s : st) (P : nat -> Prop) : Prop := forall k c, P k -> nth_error (cxs s) k = Some c -> c_ord c = true.
Definition empt (s : st) (P : nat -> Prop) : Prop := forall k c, P k -> nth_error (cxs s) k = Some c -> c_cnt c = 0.
Definition ORD (s : st) (t : nat) : Prop :=
  match pcs s t with
  | PSwap i => ords s (fun k => k < i)
  | PTest true | PLock true => ords s (fun _ => True)
  | PCtx true i rc | PWait true i rc | PSwp true i rc =>
      ords s (fun k => i <= k) /\ (0 < i -> rc = 0) /\ empt s (fun k => k < i)
  | PFac true i rc => ords s (fun k => i < k) /\ empt s (fun k => k <= i)
  | _ => True
  end.
Record Inv (s : st) (a : sp) : Prop := {
  v_n : length (cxs s) = n;
  v_cx : forall i c, nth_error (cxs s) i = Some c -> exists k, s_cx a i = Some k /\ CX s i c k;
  v_pk : forall p, PK s a p;
  v_nd : NoDup (map fst (pks s)) /\ Forall (fun x => fst x < fresh s) (pks s);
  v_open : forall t, OPEN s a t;
  v_halt : forall t, HALT s t;
  v_pm : forall t, pmut s = Some t <-> holds_p (pcs s t) = true;
  v_cm : forall t, cmut s = Some t <-> holds_c (pcs s t) = true;
  v_cur : cur s = s_last a;
  v_uniq : s_calm a -> forall t u, in_swap (pcs s t) -> in_swap (pcs s u) -> t = u;
  v_ord : s_calm a -> forall t, ORD s t;
  v_en : forall t, pcs s t = PIdle \/ pcs s t = PTest false \/ enabled = true;
  v_dead : dead s = false }.

Lemma nth_n s a i : Inv s a -> i < n -> exists c, nth_error (cxs s) i = Some c.
Proof. intros I H. destruct (nth_error (cxs s) i) eqn:E; [eauto|]. apply nth_error_None in E. rewrite (v_n _ _ I) in E. lia. Qed.
Lemma nth_lt s a i c : Inv s a -> nth_error (cxs s) i = Some c -> i < n.
Proof. intros I H. rewrite <- (v_n _ _ I). apply nth_error_Some. congruence. Qed.
Lemma nth_ge s a i : Inv s a -> nth_error (cxs s) i = None -> n <= i.
Proof. intros I H. apply nth_error_None in H. rewrite (v_n _ _ I) in H. lia. Qed.

(** Changing where one thread is, and its record *)
Lemma set_pc_eq f t (p : pc J) : set_pc f t p t = p.
Proof. unfold set_pc. rewrite Nat.eqb_refl. reflexivity. Qed.
Lemma set_pc_ne f t (p : pc J) u : u <> t -> set_pc f t p u = f u.
Proof. unfold set_pc. destruct (Nat.eqb_spec u t); congruence. Qed.
Lemma upd_eq {A} (f : nat -> A) k v : upd f k v k = v.
Proof. unfold upd. rewrite Nat.eqb_refl. reflexivity. Qed.
Lemma upd_ne {A} (f : nat -> A) k v x : x <> k -> upd f k v x = f x.
Proof. unfold upd. destruct (Nat.eqb_spec x k); congruence. Qed.

(** A thread moves from one place to another; the set of packets is as it was. *)
Lemma CX_frame s s' t p i c k ext :
  CX s i c k -> objs s' = objs s ++ ext -> pks s' = pks s -> pcs s' = set_pc (pcs s) t p ->
  (forall b rc, pcs s t <> PFac b i rc) -> CX s' i c k.
Proof.
  intros (A & B & C & D & E & F & G & H & L) Ho Hp Hc N. unfold CX. rewrite Ho, Hp, Hc.
  assert (X : forall o j, nth_error (objs s) o = Some j -> nth_error (objs s ++ ext) o = Some j).
  { intros o j Q. rewrite nth_error_app1; auto. apply nth_error_Some. congruence. }
  split; [auto|]. split; [auto|]. split; [intros Q; destruct (C Q) as (j & ? & ?); eauto|]. split; [auto|]. split; [auto|].
  split; [auto|]. split; [|split; [auto|rewrite app_length; lia]].
  intros Q. apply G. intros u b rc. destruct (Nat.eq_dec u t) as [->|Nu]; [apply N|].
  specialize (Q u b rc). rewrite set_pc_ne in Q by auto. exact Q.
Qed.

Lemma move_ok s a t p s' a' ext :
  Inv s a ->
  objs s' = objs s ++ ext -> pks s' = pks s -> fresh s' = fresh s -> dead s' = false ->
  length (cxs s') = n -> pcs s' = set_pc (pcs s) t p ->
  s_pk a' = s_pk a -> (forall u, u <> t -> s_open a' u = s_open a u) -> (s_calm a' -> s_calm a) ->
  cur s' = s_last a' ->
  (forall i c', nth_error (cxs s') i = Some c' -> exists k, s_cx a' i = Some k /\ CX s' i c' k) ->
  (forall i c, nth_error (cxs s) i = Some c -> exists c', nth_error (cxs s') i = Some c' /\ c_cnt c' = c_cnt c /\
     (c_cnt c <> 0 -> c_live c' = c_live c) /\ (c_ord c = true -> c_ord c' = true \/ in_swap (pcs s t))) ->
  OPEN s' a' t -> HALT s' t -> (s_calm a' -> ORD s' t) ->
  (s_calm a' -> in_swap p -> in_swap (pcs s t) \/ forall u, u <> t -> ~ in_swap (pcs s u)) ->
  pmut s' = (if holds_p p then Some t else if holds_p (pcs s t) then None else pmut s) ->
  (holds_p p = true -> holds_p (pcs s t) = false -> pmut s = None) ->
  cmut s' = (if holds_c p then Some t else if holds_c (pcs s t) then None else cmut s) ->
  (holds_c p = true -> holds_c (pcs s t) = false -> cmut s = None) ->
  (p = PIdle \/ p = PTest false \/ enabled = true) ->
  Inv s' a'.
Proof.
  intros I Ho Hp Hf Hd Hn Hc Apk Aop Aca Acu Ncx Ocx Nop Nha Nor Nsw Pm Pm0 Cm Cm0 Nen.
  assert (PC : forall u, u <> t -> pcs s' u = pcs s u) by (intros; rewrite Hc; apply set_pc_ne; auto).
  assert (PT : pcs s' t = p) by (rewrite Hc; apply set_pc_eq).
  assert (back : forall i c', nth_error (cxs s') i = Some c' -> exists c, nth_error (cxs s) i = Some c /\ c_cnt c' = c_cnt c /\
     (c_cnt c <> 0 -> c_live c' = c_live c) /\ (c_ord c = true -> c_ord c' = true \/ in_swap (pcs s t))).
  { intros i c' E. destruct (nth_n s a i I) as (c & Ec).
    { rewrite <- Hn. apply nth_error_Some. congruence. }
    destruct (Ocx i c Ec) as (c2 & E2 & R). rewrite E in E2. injection E2 as <-. eauto. }
  constructor; auto.
  - intros q. pose proof (v_pk _ _ I q) as Q. unfold PK in *. rewrite Hp, Apk.
    destruct (find_pk (pks s) q) as [[i o]|] eqn:Ef; destruct (s_pk a q) as [[i' j]|]; auto.
    destruct Q as (Q1 & Q2 & c & Q3 & Q4). split; auto. split.
    + rewrite Ho, nth_error_app1; auto. apply nth_error_Some. congruence.
    + destruct (Ocx i c Q3) as (c' & E' & E1 & E2 & _). exists c'. split; auto. rewrite E2; auto.
      destruct (v_cx _ _ I i c Q3) as (k & _ & (_ & _ & _ & _ & _ & _ & _ & Cn & _)). rewrite Cn. unfold in_ctx.
      clear - Ef. intros Z. induction (pks s) as [|[q' x] l IH]; [discriminate|]. cbn in *.
      destruct (q' =? q); [injection Ef as ->; cbn in Z; rewrite Nat.eqb_refl in Z; discriminate|].
      destruct (fst x =? i); [discriminate|auto].
  - rewrite Hp, Hf. apply (v_nd _ _ I).
  - intros u. destruct (Nat.eq_dec u t) as [->|N]; auto. pose proof (v_open _ _ I u) as Q. unfold OPEN in *.
    rewrite PC, (Aop u N) by auto. destruct (pcs s u); auto; destruct Q as [Q0 Q]; split; auto;
      destruct Q as (w & Q1 & Q2 & Q3); exists w; auto.
  - intros u. destruct (Nat.eq_dec u t) as [->|N]; auto. pose proof (v_halt _ _ I u) as Q. unfold HALT in *.
    rewrite PC by auto. destruct (pcs s u); auto; destruct Q as (c & Q1 & Q2); destruct (Ocx _ _ Q1) as (c' & E' & E1 & _);
      exists c'; split; auto; congruence.
  - intros u. rewrite Pm. destruct (Nat.eq_dec u t) as [->|N].
    + rewrite PT. destruct (holds_p p); [tauto|]. split; [|discriminate].
      destruct (holds_p (pcs s t)) eqn:E; [discriminate|]. intros Q. apply (v_pm _ _ I) in Q. congruence.
    + rewrite PC by auto. rewrite <- (v_pm _ _ I u). destruct (holds_p p) eqn:Ep.
      * split; [intros [= Q]; congruence|]. intros Q. destruct (holds_p (pcs s t)) eqn:E.
        -- apply (v_pm _ _ I) in E. congruence.
        -- rewrite (Pm0 eq_refl eq_refl) in Q. discriminate.
      * destruct (holds_p (pcs s t)) eqn:E; [|tauto]. apply (v_pm _ _ I) in E. rewrite E. split; [discriminate|congruence].
  - intros u. rewrite Cm. destruct (Nat.eq_dec u t) as [->|N].
    + rewrite PT. destruct (holds_c p); [tauto|]. split; [|discriminate].
      destruct (holds_c (pcs s t)) eqn:E; [discriminate|]. intros Q. apply (v_cm _ _ I) in Q. congruence.
    + rewrite PC by auto. rewrite <- (v_cm _ _ I u). destruct (holds_c p) eqn:Ep.
      * split; [intros [= Q]; congruence|]. intros Q. destruct (holds_c (pcs s t)) eqn:E.
        -- apply (v_cm _ _ I) in E. congruence.
        -- rewrite (Cm0 eq_refl eq_refl) in Q. discriminate.
      * destruct (holds_c (pcs s t)) eqn:E; [|tauto]. apply (v_cm _ _ I) in E. rewrite E. split; [discriminate|congruence].
  - intros K u v Hu Hv. specialize (Nsw K). pose proof (v_uniq _ _ I (Aca K)) as U.
    destruct (Nat.eq_dec u t) as [->|Nu], (Nat.eq_dec v t) as [->|Nv]; auto.
    + rewrite PT in Hu. rewrite PC in Hv by auto. destruct (Nsw Hu) as [Q|Q]; [apply U; auto|]. destruct (Q v Nv Hv).
    + rewrite PT in Hv. rewrite PC in Hu by auto. destruct (Nsw Hv) as [Q|Q]; [apply U; auto|]. destruct (Q u Nu Hu).
    + rewrite PC in Hu, Hv by auto. apply U; auto.
  - intros K u. destruct (Nat.eq_dec u t) as [->|N]; auto. pose proof (v_ord _ _ I (Aca K) u) as Q.
    assert (keep : in_swap (pcs s u) -> forall i c', nth_error (cxs s') i = Some c' ->
      exists c, nth_error (cxs s) i = Some c /\ c_cnt c' = c_cnt c /\ (c_ord c = true -> c_ord c' = true)).
    { intros W i c' E. destruct (back i c' E) as (c & E1 & E2 & _ & E4). exists c. split; auto. split; auto.
      intros O. destruct (E4 O) as [|Z]; auto. destruct N. apply (v_uniq _ _ I (Aca K)); auto. }
    assert (ko : forall P, in_swap (pcs s u) -> ords s P -> ords s' P).
    { intros P W H k c' Pk E. destruct (keep W k c' E) as (c & E1 & _ & E3). apply E3. eapply H; eauto. }
    assert (ke : forall P, in_swap (pcs s u) -> empt s P -> empt s' P).
    { intros P W H k c' Pk E. destruct (keep W k c' E) as (c & E1 & E2 & _). rewrite E2. eapply H; eauto. }
    unfold ORD in *. rewrite PC by auto. destruct (pcs s u) as [|j i|i|[]|[]|[] i rc|[] i rc|[] i rc|[] i rc]; auto;
      try (apply ko; [exact Logic.I|exact Q]); repeat split; try (apply ko; [exact Logic.I|apply Q]); try (apply ke; [exact Logic.I|apply Q]); apply Q.
  - intros u. destruct (Nat.eq_dec u t) as [->|N]; [rewrite PT; exact Nen|]. rewrite PC by auto. apply (v_en _ _ I).
Qed.

(** Moves that leave the contexts alone *)
Lemma move_pc s a t p s' a' :
  Inv s a -> objs s' = objs s -> cxs s' = cxs s -> pks s' = pks s -> fresh s' = fresh s -> dead s' = dead s ->
  pcs s' = set_pc (pcs s) t p ->
  s_cx a' = s_cx a -> s_pk a' = s_pk a -> (forall u, u <> t -> s_open a' u = s_open a u) -> (s_calm a' -> s_calm a) ->
  cur s' = s_last a' -> (forall b i rc, pcs s t <> PFac b i rc) ->
  OPEN s' a' t -> HALT s' t -> (s_calm a' -> ORD s' t) ->
  (s_calm a' -> in_swap p -> in_swap (pcs s t) \/ forall u, u <> t -> ~ in_swap (pcs s u)) ->
  pmut s' = (if holds_p p then Some t else if holds_p (pcs s t) then None else pmut s) ->
  (holds_p p = true -> holds_p (pcs s t) = false -> pmut s = None) ->
  cmut s' = (if holds_c p then Some t else if holds_c (pcs s t) then None else cmut s) ->
  (holds_c p = true -> holds_c (pcs s t) = false -> cmut s = None) ->
  (p = PIdle \/ p = PTest false \/ enabled = true) ->
  Inv s' a'.
Proof.
  intros I Ho Hx Hp Hf Hd Hc Ax Apk Aop Aca Acu Nf Nop Nha Nor Nsw Pm Pm0 Cm Cm0 Nen.
  apply (move_ok s a t p s' a' []); auto; try (rewrite ?app_nil_r; assumption).
  - rewrite Hd. apply I.
  - rewrite Hx. apply I.
  - rewrite Hx, Ax. intros i c E. destruct (v_cx _ _ I i c E) as (k & E1 & E2). exists k. split; auto.
    apply (CX_frame s s' t p i c k []); auto. rewrite app_nil_r; auto.
  - rewrite Hx. intros i c E. exists c. auto.
Qed.

Lemma pk_cnt l p i o : find_pk l p = Some (i, o) -> in_ctx i l <> 0.
Proof.
  unfold in_ctx. induction l as [|[q x] l IH]; [discriminate|]. cbn. destruct (q =? p).
  - intros [= ->]. cbn. rewrite Nat.eqb_refl. discriminate.
  - intros E. destruct (fst x =? i); [discriminate|auto].
Qed.
Lemma none_left s a i c p j : Inv s a -> nth_error (cxs s) i = Some c -> c_cnt c = 0 -> s_pk a p = Some (i, j) -> False.
Proof.
  intros I E Z P. pose proof (v_pk _ _ I p) as Q. unfold PK in Q. rewrite P in Q.
  destruct (find_pk (pks s) p) as [[i' o]|] eqn:F; [|contradiction]. destruct Q as (-> & _).
  apply pk_cnt in F. destruct (v_cx _ _ I i' c E) as (k & _ & (_ & _ & _ & _ & _ & _ & _ & Cn & _)). congruence.
Qed.

Ltac same := first [reflexivity | assumption].
Ltac pcsimp H := unfold OPEN, HALT, ORD; cbn [pcs at_pc with_cmut with_pmut with_cur at_cx with_obj]; rewrite ?set_pc_eq; cbn.

Lemma finish_idle s a t b rc w s1 :
  Inv s a -> (forall b i rc, pcs s t <> PFac b i rc) -> holds_c (pcs s t) = b ->
  s_open a t = Some (mkOp (cl b) (dn b) w false) ->
  (b = true -> s_calm a -> w = seq 0 n /\ rc = 0) -> (rc = 0 <-> w <> []) ->
  s1 = with_pmut s (if holds_p (pcs s t) then None else pmut s) ->
  exists a', accepts a (snd (finish s1 t b rc)) a' /\ (dead (fst (finish s1 t b rc)) = true \/ Inv (fst (finish s1 t b rc)) a').
Proof.
  intros I Nf Hb Op Cal Rc ->. unfold finish.
  assert (M : forall s' ca, pcs s' = set_pc (pcs s) t PIdle -> objs s' = objs s -> cxs s' = cxs s -> pks s' = pks s -> fresh s' = fresh s ->
     dead s' = dead s -> cur s' = ca -> cur s = ca -> pmut s' = (if holds_p (pcs s t) then None else pmut s) ->
     cmut s' = (if holds_c (pcs s t) then None else cmut s) ->
     Inv s' (mkSp (s_cx a) (s_pk a) (upd (s_open a) t None) (s_calm a) ca)).
  { intros s' ca P1 P2 P3 P4 P5 P6 P7 P8 P9 P10. apply (move_pc s a t PIdle); auto; cbn; try discriminate; try tauto.
    - intros u Nu. apply upd_ne; auto.
    - unfold OPEN. rewrite P1, set_pc_eq. cbn. apply upd_eq.
    - unfold HALT. rewrite P1, set_pc_eq. exact Logic.I.
    - intros _. unfold ORD. rewrite P1, set_pc_eq. exact Logic.I. }
  destruct b.
  - destruct (Nat.eqb_spec rc 0) as [->|Nr]; cbn [fst snd].
    + exists (mkSp (s_cx a) (s_pk a) (upd (s_open a) t None) (s_calm a) (s_last a)). split.
      * eexists. split; [|reflexivity]. exists (mkOp CSwap (seq 0 n) w false). cbn. split; [exact Op|]. split; [reflexivity|].
        split; [|reflexivity]. split; [reflexivity|]. split; [reflexivity|]. intros K. apply Cal; auto.
      * right. apply M; auto; try reflexivity; cbn; rewrite ?Hb; solve [reflexivity | apply I].
    + exists a. split; [|left; reflexivity]. eexists. split; [|reflexivity]. split; [|reflexivity].
      intros K. apply Nr. apply Cal; auto.
  - cbn [fst snd]. exists (mkSp (s_cx a) (s_pk a) (upd (s_open a) t None) (s_calm a) (s_last a)). split.
    + eexists. split; [|reflexivity]. exists (mkOp CDo [] w false). cbn. split; [exact Op|]. split; [reflexivity|]. split; [|reflexivity].
      destruct (Nat.eqb_spec rc 0); [tauto|]. destruct w; [reflexivity|]. destruct n0. apply Rc. discriminate.
    + right. apply M; auto; try reflexivity; cbn; rewrite ?Hb; solve [reflexivity | apply I].
Qed.

(** Replacing context [i] *)
Lemma at_cx_nth (s : st) i c c' k : nth_error (cxs s) i = Some c -> nth_error (set_cx (cxs s) i c') k = if k =? i then Some c' else nth_error (cxs s) k.
Proof. intros E. rewrite nth_set_cx, E. reflexivity. Qed.

Lemma move_cx s a t p s' a' i c c' k' ext :
  Inv s a -> nth_error (cxs s) i = Some c ->
  objs s' = objs s ++ ext -> cxs s' = set_cx (cxs s) i c' -> pks s' = pks s -> fresh s' = fresh s -> dead s' = dead s ->
  pcs s' = set_pc (pcs s) t p ->
  s_cx a' = upd (s_cx a) i (Some k') -> s_pk a' = s_pk a -> (forall u, u <> t -> s_open a' u = s_open a u) -> s_calm a' = s_calm a ->
  cur s' = s_last a' -> (forall b j rc, pcs s t = PFac b j rc -> j = i) ->
  CX s' i c' k' -> c_cnt c' = c_cnt c -> (c_cnt c <> 0 -> c_live c' = c_live c) -> (c_ord c = true -> c_ord c' = true \/ in_swap (pcs s t)) ->
  OPEN s' a' t -> HALT s' t -> (s_calm a' -> ORD s' t) ->
  (in_swap p -> in_swap (pcs s t)) ->
  pmut s' = pmut s -> holds_p p = holds_p (pcs s t) -> cmut s' = cmut s -> holds_c p = holds_c (pcs s t) -> enabled = true ->
  Inv s' a'.
Proof.
  intros I E Ho Hx Hp Hf Hd Hc Ax Apk Aop Aca Acu Nf Ncx Ncn Nl Nord Nop Nha Nor Nsw Pm Pm0 Cm Cm0 Nen.
  apply (move_ok s a t p s' a' ext); auto.
  - rewrite Hd. apply I.
  - rewrite Hx, len_set_cx. apply I.
  - rewrite Aca. auto.
  - rewrite Hx, Ax. intros j d. rewrite (at_cx_nth s i c) by auto. destruct (Nat.eqb_spec j i) as [->|Nj].
    + intros [= <-]. exists k'. rewrite upd_eq. auto.
    + intros Ej. destruct (v_cx _ _ I j d Ej) as (k & E1 & E2). exists k. rewrite upd_ne by auto. split; auto.
      apply (CX_frame s s' t p j d k ext); auto. intros b rc Q. apply Nf in Q. congruence.
  - rewrite Hx. intros j d Ej. rewrite (at_cx_nth s i c) by auto. destruct (Nat.eqb_spec j i) as [->|Nj].
    + exists c'. rewrite E in Ej. injection Ej as <-. auto.
    + exists d. auto.
  - rewrite Pm, Pm0. destruct (holds_p (pcs s t)) eqn:Q; auto. apply (v_pm _ _ I) in Q. auto.
  - intros. congruence.
  - rewrite Cm, Cm0. destruct (holds_c (pcs s t)) eqn:Q; auto. apply (v_cm _ _ I) in Q. auto.
  - intros. congruence.
Qed.

Definition okstep (a : sp) (s' : st) (es : list (ev J)) : Prop := exists a', accepts a es a' /\ (dead s' = true \/ Inv s' a').

Lemma go_load s a t j i : Inv s a -> pcs s t = PLoad j i -> forall s' es, go enabled init s t = Some (s', es) -> okstep a s' es.
Proof.
  intros I Pc s' es. unfold go. rewrite Pc. pose proof (v_open _ _ I t) as Op. unfold OPEN in Op. rewrite Pc in Op. destruct Op as [Li Op].
  assert (En : enabled = true) by (destruct (v_en _ _ I t) as [Q|[Q|Q]]; congruence).
  destruct (nth_error (cxs s) i) as [c|] eqn:E.
  - destruct (v_cx _ _ I i c E) as (k & Ek & Cx). assert (Cx0 := Cx). destruct Cx as (A & B & C & D & F & G & H & K & L).
    pose proof (nth_lt _ _ _ _ I E) as Lt.
    unfold cx_load. destruct (Nat.eqb_spec (c_live c) (c_rt c)) as [Eq|Ne].
    + intros [= <- <-].
      exists (mkSp (upd (s_cx a) i (Some (mkSc (s_live k) (Some j) false))) (s_pk a)
               (upd (s_open a) t (Some (mkOp (CLoad j) (seq 0 i ++ [i]) [] false))) (s_calm a) (s_last a)). split.
      * eexists. split; [|reflexivity]. split; [exact En|]. exists (mkOp (CLoad j) (seq 0 i) [] false), k. cbn. rewrite seq_length. repeat split; auto.
      * right. apply (move_cx s a t (PLoad j (S i)) _ _ i c (mkCx (c_live c) (length (objs s)) (c_ord c) (c_fac c) (c_free c) (c_cnt c)) (mkSc (s_live k) (Some j) false) [j]) ; auto; try reflexivity; cbn; try tauto; try congruence.
        -- intros u Nu. apply upd_ne. auto.
        -- apply I.
        -- unfold CX. cbn. rewrite nth_error_app1 by (apply nth_error_Some; congruence).
           assert (O : c_ord c = false) by (destruct (c_ord c) eqn:O; auto; destruct (F eq_refl); auto).
           split; [exact A|]. split; [lia|]. split.
           { intros _. exists j. split; auto. rewrite nth_error_app2 by lia. rewrite Nat.sub_diag. reflexivity. }
           split; [exact O|]. split; [congruence|]. split; [exact G|]. split.
           { intros Q. apply H. intros u b rc. specialize (Q u b rc). destruct (Nat.eq_dec u t) as [->|Nu]; [congruence|].
             rewrite set_pc_ne in Q by auto. exact Q. }
           split; [exact K|]. rewrite app_length. cbn. lia.
        -- pcsimp I. split; [lia|]. rewrite upd_eq. rewrite seq_snoc. reflexivity.
        -- pcsimp I. exact Logic.I.
        -- pcsimp I. auto.
        -- rewrite Pc. reflexivity.
        -- rewrite Pc. reflexivity.
    + intros [= <- <-]. destruct (C Ne) as (j' & Nj & _).
      exists (mkSp (s_cx a) (s_pk a) (upd (upd (s_open a) t (Some (mkOp (CLoad j) (seq 0 i) [] true))) t None) (s_calm a) (s_last a)). split.
      * eexists. split.
        { split; [exact En|]. exists (mkOp (CLoad j) (seq 0 i) [] false), k. cbn. rewrite seq_length. repeat split; auto. congruence. }
        eexists. split; [|reflexivity]. exists (mkOp (CLoad j) (seq 0 i) [] true). cbn. rewrite upd_eq. repeat split; auto.
      * right. apply (move_pc s a t PIdle); auto; try reflexivity; cbn; try discriminate; try tauto; try (rewrite Pc; reflexivity); try congruence.
        -- intros u Nu. rewrite !upd_ne; auto.
        -- apply I.
        -- pcsimp I. apply upd_eq.
        -- pcsimp I. exact Logic.I.
        -- pcsimp I. auto.
  - destruct (cmut s) eqn:Cm; [discriminate|]. intros [= <- <-].
    pose proof (nth_ge _ _ _ I E). assert (i = n) by lia. subst i.
    exists (mkSp (s_cx a) (s_pk a) (upd (s_open a) t None) (s_calm a) (Some j)). split.
    + eexists. split; [|reflexivity]. exists (mkOp (CLoad j) (seq 0 n) [] false). cbn. repeat split; auto.
    + right. apply (move_pc s a t PIdle); auto; try reflexivity; cbn; try discriminate; try tauto; try (rewrite Pc; cbn; auto; fail); try congruence.
      * intros u Nu. rewrite !upd_ne; auto.
      * pcsimp I. apply upd_eq.
      * pcsimp I. exact Logic.I.
      * pcsimp I. auto.
Qed.

Lemma go_swap s a t i : Inv s a -> pcs s t = PSwap i -> forall s' es, go enabled init s t = Some (s', es) -> okstep a s' es.
Proof.
  intros I Pc s' es. unfold go. rewrite Pc. pose proof (v_open _ _ I t) as Op. unfold OPEN in Op. rewrite Pc in Op. destruct Op as [Li Op].
  assert (En : enabled = true) by (destruct (v_en _ _ I t) as [Q|[Q|Q]]; congruence).
  assert (Or : s_calm a -> ords s (fun k => k < i)).
  { intros K. pose proof (v_ord _ _ I K t) as Q. unfold ORD in Q. rewrite Pc in Q. exact Q. }
  destruct (nth_error (cxs s) i) as [c|] eqn:E.
  - destruct (v_cx _ _ I i c E) as (k & Ek & Cx). assert (Cx0 := Cx). destruct Cx as (A & B & C & D & F & G & H & K & L).
    pose proof (nth_lt _ _ _ _ I E) as Lt.
    unfold cx_swap. destruct (Nat.eqb_spec (c_live c) (c_rt c)) as [Eq|Ne].
    + intros [= <- <-].
      exists (mkSp (s_cx a) (s_pk a) (upd (upd (s_open a) t (Some (mkOp CSwap (seq 0 i) [] true))) t None) (s_calm a) (s_last a)). split.
      * eexists. split.
        { split; [exact En|]. exists (mkOp CSwap (seq 0 i) [] false), k. cbn. rewrite seq_length. repeat split; auto. }
        eexists. split; [|reflexivity]. exists (mkOp CSwap (seq 0 i) [] true). cbn. rewrite upd_eq. repeat split; auto.
      * right. apply (move_pc s a t PIdle); auto; try reflexivity; cbn; try discriminate; try tauto; try (rewrite Pc; reflexivity); try congruence.
        -- intros u Nu. rewrite !upd_ne; auto.
        -- apply I.
        -- pcsimp I. apply upd_eq.
        -- pcsimp I. exact Logic.I.
        -- pcsimp I. auto.
    + intros [= <- <-]. destruct (C Ne) as (j' & Nj & Oj).
      exists (mkSp (upd (s_cx a) i (Some (mkSc (s_live k) (s_next k) true))) (s_pk a)
               (upd (s_open a) t (Some (mkOp CSwap (seq 0 i ++ [i]) [] false))) (s_calm a) (s_last a)). split.
      * eexists. split; [|reflexivity]. split; [exact En|]. exists (mkOp CSwap (seq 0 i) [] false), k. cbn. rewrite seq_length. repeat split; auto. congruence.
      * right. apply (move_cx s a t (PSwap (S i)) _ _ i c (mkCx (c_live c) (c_rt c) true (c_fac c) (c_free c) (c_cnt c)) (mkSc (s_live k) (s_next k) true) []) ; auto; try reflexivity; cbn; try tauto; try congruence.
        -- rewrite app_nil_r. reflexivity.
        -- intros u Nu. apply upd_ne. auto.
        -- apply I.
        -- unfold CX. cbn. split; [exact A|]. split; [tauto|]. split; [exact C|].
           split; [reflexivity|]. split; [auto|]. split; [exact G|]. split; [|split; assumption].
           intros Q. apply H. intros u b rc. specialize (Q u b rc). destruct (Nat.eq_dec u t) as [->|Nu]; [congruence|].
             rewrite set_pc_ne in Q by auto. exact Q.
        -- pcsimp I. split; [lia|]. rewrite upd_eq. rewrite seq_snoc. reflexivity.
        -- pcsimp I. exact Logic.I.
        -- pcsimp I. intros Ca k' d Lk. cbn. rewrite (at_cx_nth s i c) by auto. destruct (Nat.eqb_spec k' i) as [->|Nk].
           ++ intros [= <-]. reflexivity.
           ++ apply (Or Ca). lia.
        -- rewrite Pc. exact (fun x => x).
        -- rewrite Pc. reflexivity.
        -- rewrite Pc. reflexivity.
  - destruct (cmut s) eqn:Cm; [discriminate|]. intros [= <- <-].
    pose proof (nth_ge _ _ _ I E). assert (i = n) by lia. subst i.
    exists a. split; [reflexivity|].
    right. apply (move_pc s a t (PTest true)); auto; try reflexivity; cbn; try discriminate; try tauto; try (rewrite Pc; cbn; auto; fail); try congruence.
      * apply I.
      * pcsimp I. exact Op.
      * pcsimp I. exact Logic.I.
      * pcsimp I. intros Ca k d _ Ek. apply (Or Ca k d); auto. eapply nth_lt; eauto.
Qed.

Lemma go_test s a t b : Inv s a -> pcs s t = PTest b -> forall s' es, go enabled init s t = Some (s', es) -> okstep a s' es.
Proof.
  intros I Pc s' es. unfold go. rewrite Pc. pose proof (v_open _ _ I t) as Op. unfold OPEN in Op. rewrite Pc in Op.
  assert (Cm : (if b then Some t else cmut s) = cmut s) by (destruct b; auto; symmetry; apply (v_cm _ _ I); rewrite Pc; reflexivity).
  assert (Or : s_calm a -> b = true -> ords s (fun k => True)).
  { intros K ->. pose proof (v_ord _ _ I K t) as Q. unfold ORD in Q. rewrite Pc in Q. exact Q. }
  destruct (enabled && existsb c_ord (cxs s)) eqn:Q.
  - intros [= <- <-]. apply andb_true_iff in Q as [En _]. exists a. split; [reflexivity|]. right.
    apply (move_pc s a t (PLock b)); auto; try reflexivity; cbn; try discriminate; try tauto; try (rewrite Pc; cbn; auto; fail); try congruence; try solve [rewrite Pc; cbn; destruct b; intros; congruence].
    + apply I.
    + pcsimp I. exact Op.
    + pcsimp I. exact Logic.I.
    + pcsimp I. intros Ca. destruct b; auto.
  - intros [= R]. destruct (finish_idle s a t b 1 [] s I) as (a' & A1 & A2); auto; try congruence.
    + rewrite Pc. reflexivity.
    + intros -> Ca. exfalso. destruct (v_en _ _ I t) as [Z|[Z|Z]]; try congruence. rewrite Z in Q. cbn in Q.
      destruct (nth_n s a 0 I) as (c & Ec); [lia|]. assert (X : existsb c_ord (cxs s) = true); [|congruence].
      apply existsb_exists. exists c. split; [eapply nth_error_In; eauto|]. apply (Or Ca eq_refl 0 c); auto.
    + split; [discriminate|tauto].
    + rewrite Pc. cbn. destruct s; reflexivity.
    + rewrite R in A1, A2. exists a'. auto.
Qed.

Lemma go_lock s a t b : Inv s a -> pcs s t = PLock b -> forall s' es, go enabled init s t = Some (s', es) -> okstep a s' es.
Proof.
  intros I Pc s' es. unfold go. rewrite Pc. pose proof (v_open _ _ I t) as Op. unfold OPEN in Op. rewrite Pc in Op.
  assert (Cm : (if b then Some t else cmut s) = cmut s) by (destruct b; auto; symmetry; apply (v_cm _ _ I); rewrite Pc; reflexivity).
  assert (En : enabled = true) by (destruct (v_en _ _ I t) as [Q|[Q|Q]]; congruence).
  destruct (pmut s) eqn:Pm; [discriminate|]. intros [= <- <-]. exists a. split; [reflexivity|]. right.
  apply (move_pc s a t (PCtx b 0 1)); auto; try reflexivity; cbn; try discriminate; try tauto; try (rewrite Pc; cbn; auto; fail); try congruence; try solve [rewrite Pc; cbn; destruct b; intros; congruence].
  - apply I.
  - pcsimp I. split; [lia|]. exists []. split; [exact Op|]. split; [reflexivity|]. split; [discriminate|tauto].
  - pcsimp I. exact Logic.I.
  - pcsimp I. intros Ca. pose proof (v_ord _ _ I Ca t) as Q. unfold ORD in Q. rewrite Pc in Q. destruct b; auto.
    split; [|split; [lia|]]; intros k c Lk Ek; cbn in Ek; [eapply Q; eauto|lia].
Qed.

Lemma go_ctx s a t b i rc : Inv s a -> pcs s t = PCtx b i rc -> forall s' es, go enabled init s t = Some (s', es) -> okstep a s' es.
Proof.
  intros I Pc s' es. unfold go. rewrite Pc. pose proof (v_open _ _ I t) as Op. unfold OPEN in Op. rewrite Pc in Op.
  destruct Op as (Li & w & Op & W & Rc).
  assert (En : enabled = true) by (destruct (v_en _ _ I t) as [Q|[Q|Q]]; congruence).
  assert (Pm : pmut s = Some t) by (apply (v_pm _ _ I); rewrite Pc; reflexivity).
  assert (Cm : (if b then Some t else cmut s) = cmut s) by (destruct b; auto; symmetry; apply (v_cm _ _ I); rewrite Pc; reflexivity).
  assert (Or : s_calm a -> b = true -> ords s (fun k => i <= k) /\ (0 < i -> rc = 0) /\ empt s (fun k => k < i)).
  { intros K ->. pose proof (v_ord _ _ I K t) as Q. unfold ORD in Q. rewrite Pc in Q. exact Q. }
  destruct (nth_error (cxs s) i) as [c|] eqn:E.
  - pose proof (nth_lt _ _ _ _ I E) as Lt. destruct (c_ord c) eqn:Oc; intros [= <- <-]; exists a; (split; [reflexivity|]); right.
    + apply (move_pc s a t (PWait b i rc)); auto; try reflexivity; cbn; try discriminate; try tauto; try (rewrite Pc; cbn; auto; fail); try congruence; try solve [rewrite Pc; cbn; destruct b; intros; congruence].
      * apply I.
      * pcsimp I. split; [lia|]. exists w. auto.
      * pcsimp I. exact Lt.
      * pcsimp I. intros Ca. destruct b; auto.
    + apply (move_pc s a t (PCtx b (S i) rc)); auto; try reflexivity; cbn; try discriminate; try tauto; try (rewrite Pc; cbn; auto; fail); try congruence; try solve [rewrite Pc; cbn; destruct b; intros; congruence].
      * apply I.
      * pcsimp I. split; [lia|]. exists w. split; auto. split; auto. intros -> Ca. destruct (Or Ca eq_refl) as (O1 & _).
        rewrite (O1 i c) in Oc; auto. discriminate.
      * pcsimp I. exact Logic.I.
      * pcsimp I. intros Ca. destruct b; auto. destruct (Or Ca eq_refl) as (O1 & _). rewrite (O1 i c) in Oc; auto. discriminate.
  - pose proof (nth_ge _ _ _ I E). assert (i = n) by lia. subst i.
    destruct (finish_idle s a t b rc w (with_pmut s None) I) as (a' & A1 & A2); auto; try congruence.
    + rewrite Pc. reflexivity.
    + intros Bt Ca. split; [auto|]. apply (Or Ca Bt). lia.
    + rewrite Pc. reflexivity.
    + destruct (finish (with_pmut s None) t b rc) as [s1 e1]. intros [= <- <-]. exists a'. split; [|exact A2].
      exists a. split; [|exact A1]. exists (mkOp (cl b) (dn b) w false). split; [exact Op|]. split; [destruct b; reflexivity|].
      split; [|reflexivity]. intros Ca Cs p. destruct (s_pk a p) as [[i j]|] eqn:Ep; auto. exfalso.
      destruct b; [|discriminate]. destruct (Or Ca eq_refl) as (_ & _ & O3).
      pose proof (v_pk _ _ I p) as Q. unfold PK in Q. rewrite Ep in Q. destruct (find_pk (pks s) p) as [[i' o]|] eqn:Ef; [|auto].
      destruct Q as (<- & _ & c & Ec & _). apply (none_left s a i c p j I Ec); auto. apply (O3 i c); auto. eapply nth_lt; eauto.
Qed.

Lemma go_wait s a t b i rc : Inv s a -> pcs s t = PWait b i rc -> forall s' es, go enabled init s t = Some (s', es) -> okstep a s' es.
Proof.
  intros I Pc s' es. unfold go. rewrite Pc. pose proof (v_open _ _ I t) as Op. unfold OPEN in Op. rewrite Pc in Op.
  assert (En : enabled = true) by (destruct (v_en _ _ I t) as [Q|[Q|Q]]; congruence).
  assert (Pm : pmut s = Some t) by (apply (v_pm _ _ I); rewrite Pc; reflexivity).
  assert (Cm : (if b then Some t else cmut s) = cmut s) by (destruct b; auto; symmetry; apply (v_cm _ _ I); rewrite Pc; reflexivity).
  destruct (nth_error (cxs s) i) as [c|] eqn:E; [|discriminate].
  destruct (Nat.eqb_spec (c_cnt c) 0) as [Z|]; [|discriminate]. intros [= <- <-]. exists a; (split; [reflexivity|]); right.
  apply (move_pc s a t (PSwp b i rc)); auto; try reflexivity; cbn; try discriminate; try tauto; try (rewrite Pc; cbn; auto; fail); try congruence; try solve [rewrite Pc; cbn; destruct b; intros; congruence].
  - apply I.
  - pcsimp I. exact Op.
  - pcsimp I. exists c. auto.
  - pcsimp I. intros Ca. pose proof (v_ord _ _ I Ca t) as Q. unfold ORD in Q. rewrite Pc in Q. destruct b; auto.
Qed.

Lemma go_swp s a t b i rc : Inv s a -> pcs s t = PSwp b i rc -> forall s' es, go enabled init s t = Some (s', es) -> okstep a s' es.
Proof.
  intros I Pc s' es. unfold go. rewrite Pc. pose proof (v_open _ _ I t) as Op. unfold OPEN in Op. rewrite Pc in Op.
  destruct Op as (Li & w & Op & W & Rc).
  assert (En : enabled = true) by (destruct (v_en _ _ I t) as [Q|[Q|Q]]; congruence).
  assert (Pm : pmut s = Some t) by (apply (v_pm _ _ I); rewrite Pc; reflexivity).
  assert (Cm : (if b then Some t else cmut s) = cmut s) by (destruct b; auto; symmetry; apply (v_cm _ _ I); rewrite Pc; reflexivity).
  assert (Or : s_calm a -> b = true -> ords s (fun k => i <= k) /\ (0 < i -> rc = 0) /\ empt s (fun k => k < i)).
  { intros K ->. pose proof (v_ord _ _ I K t) as Q. unfold ORD in Q. rewrite Pc in Q. exact Q. }
  pose proof (v_halt _ _ I t) as Ha. unfold HALT in Ha. rewrite Pc in Ha. destruct Ha as (c0 & E & Z).
  rewrite E. rename c0 into c. pose proof (nth_lt _ _ _ _ I E) as Lt.
  unfold cx_do. destruct (c_ord c) eqn:Oc; intros [= <- <-].
  - destruct (v_cx _ _ I i c E) as (k & Ek & Cx). destruct Cx as (A & B & C & D & F & G & H & K & L).
    destruct (C (F Oc)) as (j & Nj & Oj).
    exists (mkSp (upd (s_cx a) i (Some (mkSc j None false))) (s_pk a)
             (upd (s_open a) t (Some (mkOp (cl b) (dn b) (w ++ [i]) false))) (s_calm a) (s_last a)). split.
    + eexists. split; [|reflexivity]. exists (mkOp (cl b) (dn b) w false), k, j. cbn. split; [exact Op|].
      split; [destruct b; reflexivity|]. split; [destruct b; [reflexivity|discriminate]|]. split; [exact Ek|]. split; [congruence|]. split; [exact Nj|].
      split; [|reflexivity]. intros p i' j' Ep ->. apply (none_left s a i c p j' I E Z Ep).
    + right. apply (move_cx s a t (PFac b i rc) _ _ i c (mkCx (c_rt c) (c_rt c) false (c_fac c) (c_free c) (c_cnt c)) (mkSc j None false) []) ; auto; try reflexivity; cbn; try tauto; try congruence.
      * rewrite app_nil_r. reflexivity.
      * intros u Nu. apply upd_ne. auto.
      * apply I.
      * unfold CX. cbn. split; [exact Oj|]. split; [auto|]. split; [tauto|]. split; [reflexivity|]. split; [discriminate|]. split; [exact G|].
        split; [|split; assumption]. intros Q. destruct (Q t b rc). apply set_pc_eq.
      * right. rewrite Pc. exact Logic.I.
      * pcsimp I. split; [lia|]. exists (w ++ [i]). rewrite upd_eq. split; [reflexivity|]. split; [|destruct w; discriminate].
        intros Bt Ca. rewrite (W Bt Ca). rewrite seq_snoc. reflexivity.
      * pcsimp I. rewrite (at_cx_nth s i c) by auto. rewrite Nat.eqb_refl. eexists. split; [reflexivity|]. exact Z.
      * pcsimp I. intros Ca. destruct b; auto. destruct (Or Ca eq_refl) as (O1 & _ & O3).
        split; intros k' d Lk; cbn; rewrite (at_cx_nth s i c) by auto; destruct (Nat.eqb_spec k' i) as [->|Nk].
        -- lia.
        -- apply O1. lia.
        -- intros [= <-]. exact Z.
        -- apply O3. lia.
      * rewrite Pc. auto.
      * rewrite Pc. reflexivity.
      * rewrite Pc. reflexivity.
  - exists a; (split; [reflexivity|]); right.
    apply (move_pc s a t (PCtx b (S i) rc)); auto; try reflexivity; cbn; try discriminate; try tauto; try (rewrite Pc; cbn; auto; fail); try congruence; try solve [rewrite Pc; cbn; destruct b; intros; congruence].
    + apply I.
    + pcsimp I. split; [lia|]. exists w. split; auto. split; auto. intros -> Ca. destruct (Or Ca eq_refl) as (O1 & _).
      rewrite (O1 i c) in Oc; auto. discriminate.
    + pcsimp I. exact Logic.I.
    + pcsimp I. intros Ca. destruct b; auto. destruct (Or Ca eq_refl) as (O1 & _). rewrite (O1 i c) in Oc; auto. discriminate.
Qed.

Lemma go_fac s a t b i rc : Inv s a -> pcs s t = PFac b i rc -> forall s' es, go enabled init s t = Some (s', es) -> okstep a s' es.
Proof.
  intros I Pc s' es. unfold go. rewrite Pc. pose proof (v_open _ _ I t) as Op. unfold OPEN in Op. rewrite Pc in Op.
  destruct Op as (Li & w & Op & W & Wn).
  assert (En : enabled = true) by (destruct (v_en _ _ I t) as [Q|[Q|Q]]; congruence).
  assert (Pm : pmut s = Some t) by (apply (v_pm _ _ I); rewrite Pc; reflexivity).
  pose proof (v_halt _ _ I t) as Ha. unfold HALT in Ha. rewrite Pc in Ha. destruct Ha as (c0 & E & Z).
  rewrite E, Z. cbn [Nat.eqb]. rename c0 into c. intros [= <- <-].
  destruct (v_cx _ _ I i c E) as (k & Ek & Cx). destruct Cx as (A & B & C & D & F & G & H & K & L).
  exists a. split; [reflexivity|]. right.
  assert (X : Inv (at_pc (at_cx s i (pool_set c (c_live c))) t (PCtx b (S i) 0))
     (mkSp (upd (s_cx a) i (Some k)) (s_pk a) (s_open a) (s_calm a) (s_last a))).
  { apply (move_cx s a t (PCtx b (S i) 0) _ _ i c (pool_set c (c_live c)) k []) ; auto; try reflexivity; cbn; try tauto; try congruence.
    - rewrite app_nil_r. reflexivity.
    - apply I.
    - unfold CX. cbn. repeat split; auto; try apply C; auto.
    - pcsimp I. split; [lia|]. exists w. split; [exact Op|]. split; [exact W|]. tauto.
    - pcsimp I. exact Logic.I.
    - pcsimp I. intros Ca. destruct b; auto. pose proof (v_ord _ _ I Ca t) as Q. unfold ORD in Q. rewrite Pc in Q. destruct Q as [Q1 Q2].
      split; [|split; [reflexivity|]]; intros k' d Lk; cbn; rewrite (at_cx_nth s i c) by auto; destruct (Nat.eqb_spec k' i) as [->|Nk].
      + lia. + apply Q1. lia. + intros [= <-]. exact Z. + apply Q2. lia.
    - rewrite Pc. auto.
    - rewrite Pc. reflexivity.
    - rewrite Pc. reflexivity. }
  (* the specification's record of the context is as it was *)
  destruct X as [X1 X2 X3 X4 X5 X6 X7 X8 X9 X10 X11 X12 X13]. constructor; auto.
  intros j d Ej. destruct (X2 j d Ej) as (k2 & E2 & R). cbn in E2. unfold upd in E2.
  destruct (Nat.eqb_spec j i) as [->|Nj]; [injection E2 as <-|]; eauto.
Qed.

Lemma go_ok s a t s' es : Inv s a -> go enabled init s t = Some (s', es) -> okstep a s' es.
Proof.
  intros I G. destruct (pcs s t) eqn:Pc.
  - unfold go in G. rewrite Pc in G. discriminate.
  - eapply go_load; eauto. - eapply go_swap; eauto. - eapply go_test; eauto. - eapply go_lock; eauto. - eapply go_ctx; eauto.
  - eapply go_wait; eauto. - eapply go_swp; eauto. - eapply go_fac; eauto.
Qed.

(** ** Packets *)
Lemma packets_ok s a s' a' i c c' :
  Inv s a -> nth_error (cxs s) i = Some c -> cxs s' = set_cx (cxs s) i c' ->
  objs s' = objs s -> pcs s' = pcs s -> cur s' = cur s -> pmut s' = pmut s -> cmut s' = cmut s -> dead s' = dead s ->
  s_cx a' = s_cx a -> s_open a' = s_open a -> s_calm a' = s_calm a -> s_last a' = s_last a ->
  (forall k, s_cx a i = Some k -> CX s i c k -> CX s' i c' k) ->
  c_live c' = c_live c -> c_ord c' = c_ord c ->
  (c_cnt c = 0 -> c_cnt c' = 0 \/ (c_fac c = c_fac c' /\ pmut s = None)) ->
  (forall k, k <> i -> in_ctx k (pks s') = in_ctx k (pks s)) ->
  (forall p, PK s' a' p) -> (NoDup (map fst (pks s')) /\ Forall (fun x => fst x < fresh s') (pks s')) ->
  Inv s' a'.
Proof.
  intros I E Hx Ho Hc Hu Hp Hm Hd Ax Ao Ac Al Ncx Nl Nor Ncn Oth Npk Nnd.
  assert (X : forall k, nth_error (cxs s') k = if k =? i then Some c' else nth_error (cxs s) k) by (intros; rewrite Hx; apply (at_cx_nth s i c); auto).
  assert (Z : forall k d, nth_error (cxs s) k = Some d -> c_cnt d = 0 -> pmut s <> None -> exists d', nth_error (cxs s') k = Some d' /\ c_cnt d' = 0).
  { intros k d Ek Zd Pn. rewrite X. destruct (Nat.eqb_spec k i) as [->|Nk]; [|eauto]. rewrite E in Ek. injection Ek as <-.
    exists c'. split; auto. destruct (Ncn Zd) as [|[_ Q]]; auto. contradiction. }
  assert (HP : forall t, holds_p (pcs s t) = true -> pmut s <> None) by (intros t Q; apply (v_pm _ _ I) in Q; congruence).
  constructor; auto.
  - rewrite Hx, len_set_cx. apply I.
  - intros k d. rewrite X, Ax. destruct (Nat.eqb_spec k i) as [->|Nk].
    + intros [= <-]. destruct (v_cx _ _ I i c E) as (q & E1 & E2). exists q. auto.
    + intros Ek. destruct (v_cx _ _ I k d Ek) as (q & E1 & E2). exists q. split; auto. unfold CX in *. rewrite Ho, Hc, (Oth k Nk). exact E2.
  - intros t. pose proof (v_open _ _ I t) as Q. unfold OPEN in *. rewrite Hc, Ao, Ac. exact Q.
  - intros t. pose proof (v_halt _ _ I t) as Q. unfold HALT in *. rewrite Hc. specialize (HP t).
    destruct (pcs s t); auto; destruct Q as (d & Q1 & Q2); apply (Z _ d); auto.
  - intros t. rewrite Hp, Hc. apply I.
  - intros t. rewrite Hm, Hc. apply I.
  - rewrite Hu, Al. apply I.
  - rewrite Hc, Ac. apply I.
  - rewrite Ac. intros K t. pose proof (v_ord _ _ I K t) as Q. specialize (HP t).
    assert (O : forall P, ords s P -> ords s' P).
    { intros P W k d Pk. rewrite X. destruct (Nat.eqb_spec k i) as [->|Nk]; [|apply W; auto]. intros [= <-]. rewrite Nor. eapply W; eauto. }
    assert (M : forall P, pmut s <> None -> empt s P -> empt s' P).
    { intros P Pn W k d Pk Ek. destruct (nth_error (cxs s) k) as [d0|] eqn:E0.
      - destruct (Z k d0 E0) as (d' & E' & Z'); auto. { eapply W; eauto. } congruence.
      - rewrite X in Ek. destruct (Nat.eqb_spec k i) as [->|Nk]; congruence. }
    unfold ORD in *. rewrite Hc. destruct (pcs s t) as [|j k|k|[]|[]|[] k rc|[] k rc|[] k rc|[] k rc]; auto;
      try (apply O; exact Q); repeat split; try (apply O; apply Q); try (apply M; [apply HP; reflexivity|apply Q]); apply Q.
  - intros t. rewrite Hc. apply I.
  - rewrite Hd. apply I.
Qed.

Lemma find_none l p f : Forall (fun x : nat * (nat * nat) => fst x < f) l -> f <= p -> find_pk l p = None.
Proof.
  induction 1 as [|[q x] l H1 H2 IH]; intros Lp; [reflexivity|]. cbn in *. destruct (Nat.eqb_spec q p); [lia|auto].
Qed.

Lemma new_ok s a i s' es : Inv s a ->
  (pmut s = None \/ in_ctx i (pks s) <> 0) -> new_packet s i = Some (s', es) -> okstep a s' es.
Proof.
  intros I Safe. unfold new_packet. destruct (nth_error (cxs s) i) as [c|] eqn:E; [|discriminate].
  destruct (v_cx _ _ I i c E) as (k & Ek & Cx). destruct Cx as (A & B & C & D & F & G & H & K & L).
  assert (Nfac : forall t b rc, pcs s t <> PFac b i rc).
  { intros t b rc Q. destruct Safe as [Sf|Sf].
    - assert (pmut s = Some t) by (apply (v_pm _ _ I); rewrite Q; reflexivity). congruence.
    - pose proof (v_halt _ _ I t) as Ha. unfold HALT in Ha. rewrite Q in Ha. destruct Ha as (c0 & E0 & Z0). congruence. }
  specialize (H Nfac).
  assert (exists fr, pool_get c = (mkCx (c_live c) (c_rt c) (c_ord c) (c_fac c) fr (S (c_cnt c)), c_live c) /\ Forall (fun x => x = c_fac c) fr) as (fr & -> & Ff).
  { unfold pool_get. destruct (c_free c) as [|x r] eqn:Fr; [exists []; rewrite <- H; auto|].
    inversion G as [|? ? G1 G2]; subst. exists r. rewrite <- H. auto. }
  rewrite A. intros [= <- <-]. destruct (v_nd _ _ I) as [N1 N2].
  assert (Fr : find_pk (pks s) (fresh s) = None) by (eapply find_none; eauto).
  assert (Sn : s_pk a (fresh s) = None).
  { pose proof (v_pk _ _ I (fresh s)) as Q. unfold PK in Q. rewrite Fr in Q. destruct (s_pk a (fresh s)); [contradiction|reflexivity]. }
  exists (mkSp (s_cx a) (upd (s_pk a) (fresh s) (Some (i, s_live k))) (s_open a) (s_calm a) (s_last a)). split.
  { eexists. split; [|reflexivity]. exists k. auto. }
  right. apply (packets_ok s a _ _ i c (mkCx (c_live c) (c_rt c) (c_ord c) (c_fac c) fr (S (c_cnt c)))); auto; try reflexivity.
  - intros k0 E0 (A' & B' & C' & D' & F' & G' & H' & K' & L'). unfold CX. cbn. repeat split; auto.
    rewrite K'. unfold in_ctx. cbn. rewrite Nat.eqb_refl. reflexivity.
  - intros Z. right. split; [reflexivity|]. destruct Safe as [|Sf]; auto. congruence.
  - intros k0 Nk. unfold in_ctx. cbn. destruct (Nat.eqb_spec i k0); [congruence|reflexivity].
  - intros p. pose proof (v_pk _ _ I p) as Q. unfold PK in *. cbn. unfold upd. rewrite (Nat.eqb_sym (fresh s) p).
    destruct (Nat.eqb_spec p (fresh s)) as [->|Np].
    + split; auto. split; auto. eexists. rewrite (at_cx_nth s i c), Nat.eqb_refl by auto. split; [reflexivity|]. reflexivity.
    + destruct (find_pk (pks s) p) as [[i1 o1]|], (s_pk a p) as [[i2 j2]|]; auto. destruct Q as (Q1 & Q2 & c1 & Q3 & Q4).
      split; auto. split; auto. rewrite (at_cx_nth s i c) by auto. destruct (Nat.eqb_spec i1 i) as [->|]; [|eauto].
      eexists. split; [reflexivity|]. cbn. congruence.
  - cbn. split.
    + constructor; auto. intros Q. apply in_map_iff in Q as (x & E1 & Q). rewrite Forall_forall in N2. specialize (N2 _ Q). lia.
    + constructor; cbn; [lia|]. eapply Forall_impl; [|exact N2]. cbn. lia.
Qed.

Lemma remove_absent l p : ~ In p (map fst l) -> remove_pk l p = l.
Proof.
  induction l as [|[q x] l IH]; [reflexivity|]. cbn. intros N. destruct (Nat.eqb_spec q p); [tauto|]. cbn. fold (remove_pk l p). rewrite IH; tauto.
Qed.
Lemma remove_count l p i o : NoDup (map fst l) -> find_pk l p = Some (i, o) ->
  in_ctx i l = S (in_ctx i (remove_pk l p)) /\ (forall k, k <> i -> in_ctx k (remove_pk l p) = in_ctx k l).
Proof.
  unfold in_ctx. induction l as [|[q x] l IH]; [discriminate|]. cbn. intros Nd. inversion Nd as [|? ? N1 N2]; subst.
  fold (remove_pk l p). destruct (Nat.eqb_spec q p) as [->|N]; cbn.
  - intros [= ->]. rewrite (remove_absent l p N1). cbn. rewrite Nat.eqb_refl. split; [reflexivity|].
    intros k Nk. destruct (Nat.eqb_spec i k); [congruence|reflexivity].
  - intros Q. destruct (IH N2 Q) as [A B]. split.
    + destruct (fst x =? i); cbn; rewrite A; reflexivity.
    + intros k Nk. destruct (fst x =? k); cbn; rewrite (B k Nk); reflexivity.
Qed.
Lemma find_remove l p q : find_pk (remove_pk l p) q = if q =? p then None else find_pk l q.
Proof.
  induction l as [|[r x] l IH]; cbn; [destruct (q =? p); reflexivity|]. fold (remove_pk l p).
  destruct (Nat.eqb_spec r p) as [->|N]; cbn.
  - rewrite IH. destruct (Nat.eqb_spec q p) as [Eq|Nq]; [reflexivity|]. destruct (Nat.eqb_spec p q); [congruence|reflexivity].
  - rewrite IH. destruct (Nat.eqb_spec r q) as [->|Nr]; [|reflexivity]. destruct (Nat.eqb_spec q p); [congruence|reflexivity].
Qed.

Lemma Inv_ext s a a' : Inv s a -> s_cx a' = s_cx a -> s_pk a' = s_pk a -> s_last a' = s_last a ->
  (forall u, s_open a' u = s_open a u) -> (s_calm a' -> s_calm a) -> Inv s a'.
Proof.
  intros I X P L O C. constructor; try apply I.
  - rewrite X. apply I.
  - intros p. pose proof (v_pk _ _ I p) as Q. unfold PK in *. rewrite P. exact Q.
  - intros t. pose proof (v_open _ _ I t) as Q. unfold OPEN in *. rewrite O. destruct (pcs s t); auto; destruct Q as (Q0 & w & Q1 & Q2 & Q3);
      split; auto; exists w; auto.
  - rewrite L. apply I.
  - intros K. apply (v_uniq _ _ I (C K)).
  - intros K. apply (v_ord _ _ I (C K)).
Qed.

Lemma open_swap s a u : Inv s a -> in_swap (pcs s u) -> exists o, s_open a u = Some o /\ swapping (o_call o) = true.
Proof.
  intros I Q. pose proof (v_open _ _ I u) as Ou. unfold OPEN in Ou.
  destruct (pcs s u) as [|j k|k|b|b|b k rc|b k rc|b k rc|b k rc]; try (destruct Q; fail).
  - destruct Ou as [_ Ou]. eauto.
  - rewrite Ou. eexists. split; [reflexivity|]. destruct b; reflexivity.
  - rewrite Ou. eexists. split; [reflexivity|]. destruct b; reflexivity.
  - destruct Ou as (_ & w & -> & _). eexists. split; [reflexivity|]. destruct b; reflexivity.
  - destruct Ou as (_ & w & -> & _). eexists. split; [reflexivity|]. destruct b; reflexivity.
  - destruct Ou as (_ & w & -> & _). eexists. split; [reflexivity|]. destruct b; reflexivity.
  - destruct Ou as (_ & w & -> & _). eexists. split; [reflexivity|]. destruct b; reflexivity.
Qed.

Definition no_cross (l : label J) : bool := match l with LCloneTo _ _ => false | _ => true end.
Lemma step_ok s a l s' es : Inv s a -> no_cross l = true -> step s l = Some (s', es) -> okstep a s' es.
Proof.
  intros I Nc. unfold SwapModel.step. rewrite (v_dead _ _ I). destruct l as [t c|t|i|p|p i|p|p|i|]; [| | | |discriminate| | | |].
  - destruct (pcs s t) eqn:Pc; try discriminate. pose proof (v_open _ _ I t) as Op. unfold OPEN in Op. rewrite Pc in Op.
    set (calm' := s_calm a /\ (swapping c = true -> forall t' o, s_open a t' = Some o -> swapping (o_call o) = false)).
    assert (Alone : calm' -> swapping c = true -> forall u, u <> t -> ~ in_swap (pcs s u)).
    { intros [_ K] Sc u Nu Q. destruct (open_swap s a u I Q) as (o & O1 & O2). rewrite (K Sc u o O1) in O2. discriminate. }
    assert (Go : enabled = true \/ c = CDo -> okstep a (at_pc s t (begin c)) [VCall t c]).
    { intros En. exists (mkSp (s_cx a) (s_pk a) (upd (s_open a) t (Some (mkOp c [] [] false))) calm' (s_last a)). split.
      { eexists. split; [|reflexivity]. split; auto. }
      right. apply (move_pc s a t (begin c)); auto; try reflexivity; cbn; try congruence.
      - intros u Nu. apply upd_ne; auto.
      - intros [K _]. exact K.
      - apply I.
      - pcsimp I. destruct c; cbn; rewrite ?upd_eq; auto; split; auto; lia.
      - pcsimp I. destruct c; exact Logic.I.
      - pcsimp I. intros K. destruct c; cbn; auto. intros k d Lk. lia.
      - intros K Q. right. apply Alone; auto. destruct c; auto.
      - rewrite Pc. cbn. destruct c; reflexivity.
      - rewrite Pc. destruct c; discriminate.
      - rewrite Pc. cbn. destruct c; reflexivity.
      - rewrite Pc. destruct c; discriminate.
      - destruct En as [En|En]; auto. subst c. auto. }
    assert (No : enabled = false -> match c with CDo => True | _ => okstep a s [VCall t c; VRet t c false] end).
    { intros En. destruct c as [j| |]; [| |exact Logic.I].
      - exists (mkSp (s_cx a) (s_pk a) (upd (upd (s_open a) t (Some (mkOp (CLoad j) [] [] false))) t None) calm' (s_last a)). split.
        + eexists. split; [split; [exact Op|reflexivity]|]. eexists. split; [|reflexivity]. exists (mkOp (CLoad j) [] [] false).
          cbn. rewrite upd_eq. repeat split; auto.
        + right. apply (Inv_ext s a); auto; cbn; [|intros [K _]; exact K]. intros u. unfold upd. destruct (Nat.eqb_spec u t); [subst; auto|reflexivity].
      - exists (mkSp (s_cx a) (s_pk a) (upd (upd (s_open a) t (Some (mkOp CSwap [] [] false))) t None) calm' (s_last a)). split.
        + eexists. split; [split; [exact Op|reflexivity]|]. eexists. split; [|reflexivity]. exists (mkOp CSwap [] [] false).
          cbn. rewrite upd_eq. repeat split; auto.
        + right. apply (Inv_ext s a); auto; cbn; [|intros [K _]; exact K]. intros u. unfold upd. destruct (Nat.eqb_spec u t); [subst; auto|reflexivity]. }
    destruct c as [j| |]; [destruct enabled eqn:En|destruct enabled eqn:En|]; intros [= <- <-]; auto.
  - apply go_ok; auto.
  - destruct (pmut s) eqn:Pm; [discriminate|]. apply new_ok; auto.
  - destruct (find_pk (pks s) p) as [[i o]|] eqn:Ef; [|discriminate]. apply new_ok; auto. right. eapply pk_cnt; eauto.
  - destruct (find_pk (pks s) p) as [[i o]|] eqn:Ef; [|discriminate].
    destruct (nth_error (cxs s) i) as [c|] eqn:E; [|discriminate]. intros [= <- <-].
    destruct (v_nd _ _ I) as [N1 N2]. destruct (remove_count _ _ _ _ N1 Ef) as [R1 R2].
    pose proof (v_pk _ _ I p) as Qp. unfold PK in Qp. rewrite Ef in Qp. destruct (s_pk a p) as [[i' j]|] eqn:Ep; [|contradiction].
    destruct Qp as (-> & Qo & c0 & Q3 & Q4). rewrite E in Q3. injection Q3 as <-.
    exists (mkSp (s_cx a) (upd (s_pk a) p None) (s_open a) (s_calm a) (s_last a)). split.
    { eexists. split; [|reflexivity]. split; [congruence|reflexivity]. }
    right. apply (packets_ok s a _ _ i c (pool_release c o)); auto; try reflexivity.
    + intros k0 E0 (A' & B' & C' & D' & F' & G' & H' & K' & L'). unfold CX. cbn. repeat split; auto.
      * constructor; auto. rewrite Q4. symmetry. apply H'. intros t b rc Q. pose proof (v_halt _ _ I t) as Ha. unfold HALT in Ha.
        rewrite Q in Ha. destruct Ha as (c1 & E1 & Z1). rewrite E in E1. injection E1 as <-. lia.
      * rewrite K', R1. reflexivity.
    + cbn. intros ->. left. reflexivity.
    + intros q. pose proof (v_pk _ _ I q) as Q. unfold PK in *. cbn. rewrite find_remove. unfold upd.
      destruct (Nat.eqb_spec q p) as [->|Nq]; [exact Logic.I|].
      destruct (find_pk (pks s) q) as [[i1 o1]|], (s_pk a q) as [[i2 j2]|]; auto. destruct Q as (Q1 & Q2 & c1 & Q3 & Q5).
      split; auto. split; auto. rewrite (at_cx_nth s i c) by auto. destruct (Nat.eqb_spec i1 i) as [->|]; [|eauto].
      eexists. split; [reflexivity|]. cbn. congruence.
    + cbn. split.
      * clear - N1. induction (pks s) as [|[q x] l IH]; [constructor|]. cbn in *. inversion N1 as [|? ? M1 M2]; subst.
        destruct (q =? p); cbn; auto. constructor; auto. intros Q. apply M1. apply in_map_iff in Q as (y & E1 & Q).
        apply filter_In in Q as [Q _]. apply in_map_iff. eauto.
      * apply Forall_forall. intros x Q. apply filter_In in Q as [Q _]. rewrite Forall_forall in N2. auto.
  - destruct (find_pk (pks s) p) as [[i o]|] eqn:Ef; [|discriminate].
    pose proof (v_pk _ _ I p) as Qp. unfold PK in Qp. rewrite Ef in Qp. destruct (s_pk a p) as [[i' j]|] eqn:Ep; [|contradiction].
    destruct Qp as (-> & Qo & c0 & Q3 & Q4). rewrite Q3, Qo. subst o. rewrite Qo. intros [= <- <-].
    exists a. split; [|right; exact I]. eexists. split; [|reflexivity].
    destruct (v_cx _ _ I i c0 Q3) as (k & Ek & (A & _)). exists k. repeat split; auto. congruence.
  - destruct (nth_error (cxs s) i) as [c|] eqn:E; [|discriminate].
    destruct (v_cx _ _ I i c E) as (k & Ek & (A & B & C & _)).
    destruct (nth_error (objs s) (c_rt c)) as [j|] eqn:Ej; [|discriminate]. intros [= <- <-].
    exists a. split; [|right; exact I]. eexists. split; [|reflexivity]. exists k. split; auto. split; auto. unfold newest.
    destruct (Nat.eq_dec (c_live c) (c_rt c)) as [Eq|Ne]; [rewrite (B Eq); congruence|].
    destruct (C Ne) as (j' & -> & Ej'). congruence.
  - destruct (cmut s); [discriminate|]. intros [= <- <-]. exists a. split; [|right; exact I]. eexists. split; [|reflexivity].
    split; auto. apply (v_cur _ _ I).
Qed.

Lemma accepts_app es1 : forall es2 a a1 a2, accepts a es1 a1 -> accepts a1 es2 a2 -> accepts a (es1 ++ es2) a2.
Proof.
  induction es1 as [|e es1 IH]; intros es2 a a1 a2 H1 H2; cbn in *; [subst; exact H2|].
  destruct H1 as (a3 & A & B). exists a3. split; auto. eapply IH; eauto.
Qed.
Lemma run_dead ls : forall s, dead s = true -> run s ls = (s, []).
Proof.
  induction ls as [|l ls IH]; intros s D; [reflexivity|]. cbn. unfold SwapModel.step. rewrite D. apply IH; auto.
Qed.
Lemma run_ok ls : forall s a, Inv s a -> forallb no_cross ls = true ->
  exists a', accepts a (snd (run s ls)) a' /\ (dead (fst (run s ls)) = true \/ Inv (fst (run s ls)) a').
Proof.
  induction ls as [|l ls IH]; intros s a I F; [exists a; split; [reflexivity|right; exact I]|].
  cbn in F. apply andb_true_iff in F as [F1 F2]. cbn [SwapModel.run].
  destruct (step s l) as [[s1 e1]|] eqn:E; [|apply IH; auto].
  destruct (step_ok s a l s1 e1 I F1 E) as (a1 & A1 & [D|I1]).
  - rewrite (run_dead ls s1 D). cbn. rewrite app_nil_r. exists a1. auto.
  - destruct (IH s1 a1 I1 F2) as (a2 & A2 & R). destruct (run s1 ls) as [s2 e2]. cbn in *. exists a2. split; auto. eapply accepts_app; eauto.
Qed.

Lemma nth_repeat j i : i < n -> nth_error (repeat j n) i = Some (j : J).
Proof. clear. revert i. induction n as [|m IH]; intros i H; [lia|]. destruct i; cbn; [reflexivity|]. apply IH. lia. Qed.
Lemma nth_seq0 i : i < n -> nth_error (seq 0 n) i = Some i.
Proof.
  intros L. rewrite (nth_error_nth' _ 0) by (rewrite seq_length; auto). rewrite seq_nth by auto. reflexivity.
Qed.
Lemma start_ok j : Inv (start n j) (sp_start n j).
Proof.
  assert (N : forall i c, nth_error (map (fun i => mkCx i i false i [] 0) (seq 0 n)) i = Some c -> i < n /\ c = mkCx i i false i [] 0).
  { intros i c E. assert (L : i < n). { rewrite <- (seq_length n 0), <- (map_length (fun i => mkCx i i false i [] 0)). apply nth_error_Some. congruence. }
    split; auto. rewrite (map_nth_error _ _ _ (nth_seq0 i L)) in E. congruence. }
  constructor; cbn; auto; try (intros; tauto).
  - rewrite map_length, seq_length. reflexivity.
  - intros i c E. destruct (N i c E) as [L ->]. exists (mkSc j None false). split.
    + change ((if i <? n then Some (mkSc j None false) else None) = Some (mkSc j None false)). destruct (Nat.ltb_spec i n); [reflexivity|lia].
    + unfold CX. cbn [start objs c_live c_rt c_ord c_fac c_free c_cnt s_live s_next s_req pks]. rewrite repeat_length, nth_repeat by auto.
      repeat split; auto; try congruence.
  - split; constructor.
  - intros t. split; discriminate.
  - intros t. split; discriminate.
Qed.
End Proofs.
