(** Proofs about egress queueing: the model refines the specification. *)
From Coq Require Import List Arith NArith Bool Lia Sorted.
From Verif Require Import Base QueueingModel QueueingSpec.
Import ListNotations.

Section P.
Context {T : Type}.
Variables (ticks : N -> N) (wmap : nat -> nat) (nw np : nat).
Hypothesis NP : np <= 32.

(** ** The order of the priority queue *)
Definition blt (a b : qe T) : Prop := (e_send a < e_send b)%N \/ (e_send a = e_send b /\ e_id a < e_id b).
Lemma before_blt a b : before a b = true <-> blt a b.
Proof.
  unfold before, blt. destruct (N.eqb_spec (e_send a) (e_send b)).
  - rewrite Nat.ltb_lt. lia.
  - rewrite N.ltb_lt. lia.
Qed.
Lemma blt_trans a b c : blt a b -> blt b c -> blt a c. Proof. unfold blt. lia. Qed.

Definition tow (e : qe T) : T * N * nat := (e_item e, e_send e, e_id e).
Definition isq (q : nat) (e : qe T) : bool := e_q e =? q.

Lemma ins_In (e : qe T) l x : In x (pq_ins e l) <-> x = e \/ In x l.
Proof.
  induction l as [|y l IH]; cbn [pq_ins In]; [intuition|]. destruct (before e y); cbn [In]; [intuition|]. rewrite IH. intuition.
Qed.
Lemma ins_len (e : qe T) l : length (pq_ins e l) = S (length l).
Proof. induction l as [|y l IH]; cbn; auto. destruct (before e y); cbn; auto. Qed.
Lemma ins_sorted (e : qe T) l : StronglySorted blt l -> Forall (fun x => e_id x < e_id e) l -> StronglySorted blt (pq_ins e l).
Proof.
  induction l as [|y l IH]; intros S F; cbn [pq_ins].
  - constructor; constructor.
  - inversion S as [|? ? S1 F1]; subst. inversion F as [|? ? I F2]; subst. destruct (before e y) eqn:B.
    + apply before_blt in B. constructor; auto. constructor; auto. eapply Forall_impl; [|exact F1]. cbn; intros z. apply blt_trans; auto.
    + constructor; auto. apply Forall_forall. intros z H. apply ins_In in H as [->|H].
      * assert (~ blt e y) by (intros X; apply before_blt in X; congruence). unfold blt in *. lia.
      * apply (proj1 (Forall_forall _ _) F1); auto.
Qed.
Lemma filter_none {A} (f : A -> bool) l : (forall x, In x l -> f x = false) -> filter f l = [].
Proof. induction l; cbn; intros H; auto. rewrite H by auto. apply IHl. auto. Qed.
Lemma ins_filter_neq (e : qe T) l q : e_q e <> q -> filter (isq q) (pq_ins e l) = filter (isq q) l.
Proof.
  intros N. assert (F : isq q e = false) by (apply Nat.eqb_neq; auto).
  induction l as [|y l IH]; cbn [pq_ins filter]; [rewrite F; auto|]. destruct (before e y); cbn [filter]; [rewrite F; auto|].
  rewrite IH. auto.
Qed.
Lemma ins_filter_eq (e : qe T) l : StronglySorted blt l -> Forall (fun x => e_id x < e_id e) l ->
  (forall x, In x l -> e_q x = e_q e -> (e_send x <= e_send e)%N) ->
  filter (isq (e_q e)) (pq_ins e l) = filter (isq (e_q e)) l ++ [e].
Proof.
  assert (E : isq (e_q e) e = true) by apply Nat.eqb_refl.
  induction l as [|y l IH]; intros S F Q; cbn [pq_ins filter].
  - rewrite E. auto.
  - inversion S as [|? ? S1 F1]; subst. inversion F as [|? ? I F2]; subst. destruct (before e y) eqn:B.
    + apply before_blt in B. cbn [filter]. rewrite E.
      assert (Z : filter (isq (e_q e)) (y :: l) = []).
      { apply filter_none. intros x H. apply Nat.eqb_neq. intros X. specialize (Q x H X).
        assert (blt e x). { destruct H as [<-|H]; auto. eapply blt_trans; eauto. apply (proj1 (Forall_forall _ _) F1); auto. }
        pose proof (proj1 (Forall_forall _ _) F x H) as IL. cbn in IL. unfold blt in *. lia. }
      cbn [filter] in Z. rewrite Z. auto.
    + cbn [filter]. rewrite IH; auto. { destruct (isq (e_q e) y); auto. } intros x H. apply Q. right; auto.
Qed.

(** ** The invariant *)
Definition PQ (w : nat) (cnt : nat) (pend : nat -> list (T * N * nat)) (l : list (qe T)) : Prop :=
  StronglySorted blt l /\ Forall (fun e => e_id e < cnt /\ wmap (e_q e) = w) l /\
  forall q, wmap q = w -> map tow (filter (isq q) l) = pend q.
Definition WR (sp : sst T) (w : nat) (wk : worker T) : Prop :=
  length (w_queues wk) = 32 /\ w_cnt wk = s_arr sp w /\
  w_size wk = sum_to (fun p => length (nth p (w_queues wk) [])) np /\
  forall p l, p < np -> nth_error (w_queues wk) p = Some l -> PQ w (w_cnt wk) (fun q => s_pend (s_q sp q p)) l.
Definition PR (qp : qip) (x : sq T) : Prop :=
  qp_size qp = length (s_pend x) /\ qp_cap qp = s_cap x /\ qp_delay qp = s_delay x /\
  s_last x = Some (qp_last qp) /\ Forall (fun y => (w_send y <= qp_last qp)%N) (s_pend x).
Definition QR (cap : nat) (rate : N) (o : option qinfo) (x : nat -> sq T) : Prop :=
  match o with
  | None => forall p, s_last (x p) = None /\ s_pend (x p) = [] /\ s_cap (x p) = cap /\ s_delay (x p) = ticks rate
  | Some qi => length (qi_pri qi) = np /\ qi_size qi = sum_to (fun p => length (s_pend (x p))) np /\
      (forall p, s_last (x p) <> None) /\
      forall p qp, nth_error (qi_pri qi) p = Some qp -> PR qp (x p)
  end.
Definition R (s : qlog T) (sp : sst T) : Prop :=
  length (l_w s) = nw /\ (forall w wk, nth_error (l_w s) w = Some wk -> WR sp w wk) /\
  forall q, QR (l_cap s) (l_rate s) (l_q s q) (s_q sp q).

Lemma sum_to_ext f g n : (forall p, p < n -> f p = g p) -> sum_to f n = sum_to g n.
Proof. induction n; cbn; intros H; auto. rewrite IHn, H by auto. auto. Qed.
Lemma sum_to_upd f g n p : p < n -> (forall i, i <> p -> f i = g i) -> sum_to g n + f p = sum_to f n + g p.
Proof.
  intros L H. induction n; [lia|]. cbn. destruct (Nat.eq_dec p n) as [->|N].
  - rewrite (sum_to_ext f g n) by (intros; apply H; lia). lia.
  - rewrite (H n) by auto. specialize (IHn ltac:(lia)). lia.
Qed.
Lemma sum_to_zero f n : (forall p, p < n -> f p = 0) -> sum_to f n = 0.
Proof. induction n; cbn; intros H; auto. rewrite IHn, H by auto. auto. Qed.

Lemma R_new cap : R (l_new nw cap) (s_new ticks cap).
Proof.
  split; [apply repeat_length|]. split.
  - intros w wk H. apply nth_error_In in H. apply repeat_spec in H. subst wk. unfold WR; cbn [w_queues w_cnt w_size].
    split; [apply repeat_length|]. split; [reflexivity|].
    assert (E : forall p, nth p (repeat (@nil (qe T)) 32) [] = []).
    { intros p. destruct (Nat.lt_ge_cases p 32) as [L|L]; [|apply nth_overflow; rewrite repeat_length; auto].
      eapply repeat_spec. apply nth_In. rewrite repeat_length. auto. }
    split; [symmetry; apply sum_to_zero; intros; rewrite E; auto|].
    intros p l L H. apply nth_error_In in H. apply repeat_spec in H. subst l.
    split; [constructor|]. split; [constructor|]. reflexivity.
  - intros q p. cbn. auto.
Qed.

Lemma WR_ext sp sp' w wk : WR sp w wk -> (forall q p, s_pend (s_q sp' q p) = s_pend (s_q sp q p)) ->
  s_arr sp' w = s_arr sp w -> WR sp' w wk.
Proof.
  intros (A & B & C & D) E F. split; auto. split; [congruence|]. split; auto.
  intros p l L H. destruct (D p l L H) as (X & Y & Z). split; auto. split; auto. intros q Hq. rewrite E. auto.
Qed.

Lemma mention_pend q now f q' p : s_pend (@mention T q now f q' p) = s_pend (f q' p).
Proof. unfold mention. destruct (q' =? q); auto. destruct (s_last (f q' p)); auto. Qed.
Lemma mention_neq q now (f : nat -> nat -> sq T) q' p : q' <> q -> mention q now f q' p = f q' p.
Proof. intros N. unfold mention. destruct (Nat.eqb_spec q' q); congruence. Qed.

Lemma QR_same cap rate o x y : QR cap rate o x -> (forall p, y p = x p) -> QR cap rate o y.
Proof.
  intros H E. destruct o as [qi|]; cbn in *.
  - destruct H as (A & B & C & D). split; auto. split; [rewrite B; apply sum_to_ext; intros; rewrite E; auto|].
    split; intros; rewrite E; auto.
  - intros p. rewrite E. auto.
Qed.

Lemma get_queue_ok s sp q now s1 qi : R s sp -> get_queue ticks np s q now = (s1, qi) ->
  R s1 (mkSst (mention q now (s_q sp)) (s_arr sp)) /\ l_q s1 q = Some qi /\ l_w s1 = l_w s /\ l_cap s1 = l_cap s /\ l_rate s1 = l_rate s.
Proof.
  intros (L & W & Q) G. unfold get_queue in G. destruct (l_q s q) as [i|] eqn:E.
  - injection G as <- <-. split; [|auto]. split; auto. split.
    + intros w wk H. eapply WR_ext; eauto. intros; apply mention_pend.
    + intros q'. cbn [s_q]. eapply QR_same; [apply Q|]. intros p. unfold mention. destruct (Nat.eqb_spec q' q) as [->|]; auto.
      pose proof (Q q) as X. rewrite E in X. cbn in X. destruct X as (_ & _ & X & _). specialize (X p). destruct (s_last (s_q sp q p)); congruence.
  - injection G as <- <-. split; [|cbn; unfold updq; rewrite Nat.eqb_refl; auto]. split; auto. split.
    + intros w wk H. eapply WR_ext; eauto. intros; apply mention_pend.
    + intros q'. cbn [s_q l_q set_q l_cap l_rate]. unfold updq. destruct (Nat.eqb_spec q' q) as [->|N].
      * pose proof (Q q) as X. rewrite E in X. cbn in X. unfold mention. rewrite Nat.eqb_refl.
        assert (PE : forall p, mention q now (s_q sp) q p = mkSq [] (l_cap s) (ticks (l_rate s)) (Some now)).
        { intros p. unfold mention. rewrite Nat.eqb_refl. destruct (X p) as (A & B & C & D). rewrite A, B, C, D. auto. }
        apply QR_same with (x := fun _ => mkSq [] (l_cap s) (ticks (l_rate s)) (Some now)).
        2:{ intros p. destruct (X p) as (A & B & C & D). rewrite A, B, C, D. auto. }
        cbn. split; [apply repeat_length|]. split; [symmetry; apply sum_to_zero; auto|]. split; [discriminate|].
        intros p qp H. apply nth_error_In in H. apply repeat_spec in H. subst qp. unfold PR; cbn. auto.
      * eapply QR_same; [apply Q|]. intros p. apply mention_neq. auto.
Qed.

Lemma upd_eq f q p (x : sq T) : upd f q p x q p = x.
Proof. unfold upd. rewrite !Nat.eqb_refl. auto. Qed.
Lemma upd_neq f q p (x : sq T) q' p' : q' <> q \/ p' <> p -> upd f q p x q' p' = f q' p'.
Proof. unfold upd. intros H. destruct (Nat.eqb_spec q' q), (Nat.eqb_spec p' p); cbn; auto. subst. destruct H; congruence. Qed.

(** Changing one (queue, priority) of an existing queue. *)
Lemma QR_upd cap rate qi x p qp qp' y n' : QR cap rate (Some qi) x -> nth_error (qi_pri qi) p = Some qp -> PR qp' y ->
  n' + length (s_pend (x p)) = qi_size qi + length (s_pend y) ->
  forall x', x' p = y -> (forall p', p' <> p -> x' p' = x p') -> QR cap rate (Some (mkQi (list_set (qi_pri qi) p qp') n')) x'.
Proof.
  intros (A & B & C & D) H PRy SZ x' E1 E2. assert (LP : p < length (qi_pri qi)) by (apply nth_error_Some; congruence).
  split; cbn [qi_pri qi_size]; [rewrite list_set_length; auto|]. split; [|split].
  - pose proof (sum_to_upd (fun p => length (s_pend (x p))) (fun p => length (s_pend (x' p))) np p ltac:(lia)) as S.
    cbn beta in S. rewrite E1 in S. specialize (S ltac:(intros; rewrite E2; auto)). lia.
  - intros p'. destruct (Nat.eq_dec p' p) as [->|N]; [rewrite E1; destruct PRy as (_ & _ & _ & X & _); congruence|rewrite E2; auto].
  - intros p' qp0 Hp. destruct (Nat.eq_dec p' p) as [->|N].
    + rewrite nth_error_list_set_eq in Hp by auto. injection Hp as <-. rewrite E1. auto.
    + rewrite nth_error_list_set_neq in Hp by auto. rewrite E2 by auto. auto.
Qed.

Lemma push_ok s sp q pri item now0 now : R s sp -> exists s' x sp', l_push ticks wmap np s q pri item now0 now = Some (s', x) /\
  qspec ticks wmap nw np sp (OPush q pri item now0 now) x sp' /\ R s' sp'.
Proof.
  intros HR. unfold l_push. destruct (get_queue ticks np s q now0) as [s1 qi] eqn:G.
  destruct (get_queue_ok _ _ _ _ _ _ HR G) as (R1 & EQ & EW & EC & ER).
  destruct R1 as (L & W & Q). pose proof (Q q) as QQ. rewrite EQ in QQ.
  destruct (nth_error (l_w s1) (wmap q)) as [wk|] eqn:Ew.
  2:{ do 3 eexists. split; [reflexivity|]. split; [apply qs_push_throw; left; apply nth_error_None in Ew; lia|split; auto]. }
  assert (WL : wmap q < nw) by (rewrite <- L; apply nth_error_Some; congruence).
  destruct QQ as (QA & QB & QC & QD).
  destruct (nth_error (qi_pri qi) pri) as [qp|] eqn:Ep.
  2:{ do 3 eexists. split; [reflexivity|]. split; [apply qs_push_throw; right; apply nth_error_None in Ep; lia|split; auto]. }
  assert (PL : pri < np) by (rewrite <- QA; apply nth_error_Some; congruence).
  pose proof (QD _ _ Ep) as (P1 & P2 & P3 & P4 & P5). cbn [s_q] in *.
  set (f := mention q now0 (s_q sp)) in *.
  assert (CP : s_cap (f q pri) = s_cap (s_q sp q pri)).
  { unfold f, mention. rewrite Nat.eqb_refl. destruct (s_last (s_q sp q pri)); auto. }
  assert (LN : length (s_pend (f q pri)) = length (s_pend (s_q sp q pri))) by (unfold f; rewrite mention_pend; auto).
  destruct (Nat.leb_spec (qp_cap qp) (qp_size qp)) as [LE|GT].
  { do 3 eexists. split; [reflexivity|]. split; [apply qs_push_full; auto; lia|split; auto]. }
  pose proof (W _ _ Ew) as (W1 & W2 & W3 & W4).
  destruct (nth_error (w_queues wk) pri) as [pq|] eqn:Epq; [|apply nth_error_None in Epq; lia].
  do 3 eexists. split; [reflexivity|]. split; [apply qs_push; auto; lia|].
  fold f. assert (SD : next_tp qp now = N.max now (last_of (f q pri) + s_delay (f q pri))).
  { unfold next_tp, last_of. rewrite P4, P3. auto. }
  rewrite <- SD. set (send := next_tp qp now) in *. cbn [s_arr] in W2.
  assert (SL : (qp_last qp <= send)%N) by (unfold send, next_tp; lia).
  destruct (W4 pri pq PL Epq) as (X1 & X2 & X3). cbn [s_q] in X3.
  set (e := mkQe item q send (w_cnt wk)).
  assert (X2i : Forall (fun x => e_id x < e_id e) pq) by (eapply Forall_impl; [|exact X2]; cbn; intros; tauto).
  split; cbn [l_w l_q l_cap l_rate]; [rewrite list_set_length; auto|]. split.
  - intros w wk' H. destruct (Nat.eq_dec w (wmap q)) as [->|N].
    + rewrite nth_error_list_set_eq in H by lia. injection H as <-. unfold WR; cbn [w_queues w_cnt w_size s_arr s_q].
      split; [rewrite list_set_length; auto|]. split; [rewrite Nat.eqb_refl; auto|]. split.
      * pose proof (sum_to_upd (fun p => length (nth p (w_queues wk) [])) (fun p => length (nth p (list_set (w_queues wk) pri (pq_ins e pq)) [])) np pri PL) as S.
        cbn beta in S. rewrite nth_list_set_eq in S by lia. rewrite ins_len in S. rewrite (nth_error_nth _ _ _ Epq) in S.
        specialize (S ltac:(intros; rewrite nth_list_set_neq by auto; auto)). lia.
      * intros p l PL' H. destruct (Nat.eq_dec p pri) as [->|N].
        -- rewrite nth_error_list_set_eq in H by lia. injection H as <-. split; [apply ins_sorted; auto|]. split.
           ++ apply Forall_forall. intros y Hy. apply ins_In in Hy as [->|Hy]; [cbn; auto|].
              pose proof (proj1 (Forall_forall _ _) X2 y Hy). cbn in H. intuition.
           ++ intros q' Hq. destruct (Nat.eq_dec q' q) as [->|N].
              ** rewrite upd_eq. cbn [s_pend]. change q with (e_q e) at 1. rewrite ins_filter_eq; auto.
                 { rewrite map_app. cbn [map e_q e]. rewrite X3 by auto. unfold tow, e; cbn. rewrite W2. auto. }
                 intros y Hy Eq. cbn in Eq. cbn [e_send e].
                 assert (In (tow y) (s_pend (f q pri))).
                 { rewrite <- X3 by auto. apply in_map. apply filter_In. split; auto. apply Nat.eqb_eq. auto. }
                 pose proof (proj1 (Forall_forall _ _) P5 _ H) as Hs. unfold w_send, tow in Hs; cbn in Hs. lia.
              ** rewrite upd_neq by auto. rewrite ins_filter_neq by (cbn; auto). apply X3; auto.
        -- rewrite nth_error_list_set_neq in H by auto. destruct (W4 p l PL' H) as (Y1 & Y2 & Y3). split; auto. split.
           ++ eapply Forall_impl; [|exact Y2]. cbn; intros; intuition.
           ++ intros q' Hq. rewrite upd_neq by auto. auto.
    + rewrite nth_error_list_set_neq in H by auto. destruct (W w wk' H) as (Y1 & Y2 & Y3 & Y4).
      split; auto. cbn [s_arr s_q] in *. split; [destruct (Nat.eqb_spec w (wmap q)); congruence|]. split; auto.
      intros p l PL' H'. destruct (Y4 p l PL' H') as (Z1 & Z2 & Z3). split; auto. split; auto.
      intros q' Hq. rewrite upd_neq by (left; intros ->; congruence). auto.
  - intros q'. cbn [s_q]. unfold updq. destruct (Nat.eqb_spec q' q) as [->|N].
    + eapply QR_upd with (x := f q) (qp := qp) (y := mkSq (s_pend (f q pri) ++ [(item, send, s_arr sp (wmap q))]) (s_cap (f q pri)) (s_delay (f q pri)) (Some send)); auto.
      * split; auto.
      * unfold PR; cbn [qp_size qp_cap qp_delay qp_last s_pend s_cap s_delay s_last]. rewrite app_length; cbn. repeat (split; auto); try lia.
        apply Forall_app. split; [eapply Forall_impl; [|exact P5]; cbn; intros; lia|]. constructor; [unfold w_send; cbn; lia|constructor].
      * cbn [s_pend]. rewrite app_length. cbn. lia.
      * apply upd_eq.
      * intros p' Np. apply upd_neq. auto.
    + eapply QR_same; [apply Q|]. intros p. rewrite upd_neq by auto. reflexivity.
Qed.

Lemma find_pri_ok w cnt pend qs now : forall n, n <= np -> length qs = 32 ->
  (forall p l, p < np -> nth_error qs p = Some l -> PQ w cnt (pend p) l) ->
  exists r, find_pri n qs now = Some r /\
    match r with
    | None => forall p l e, p < n -> nth_error qs p = Some l -> In e l -> (now < e_send e)%N
    | Some (p, e, rest) => p < n /\ nth_error qs p = Some (e :: rest) /\ (e_send e <= now)%N /\
        forall p' l e', p < p' -> p' < n -> nth_error qs p' = Some l -> In e' l -> (now < e_send e')%N
    end.
Proof.
  induction n as [|n IH]; intros LN LQ H; cbn [find_pri].
  - exists None. split; auto. intros; lia.
  - destruct (nth_error qs n) as [l|] eqn:E; [|apply nth_error_None in E; lia].
    destruct (IH ltac:(lia) LQ H) as (r & -> & IHr).
    assert (G : (forall e, In e l -> (now < e_send e)%N) -> exists r0, Some r = Some r0 /\
       match r0 with
       | None => forall p l e, p < S n -> nth_error qs p = Some l -> In e l -> (now < e_send e)%N
       | Some (p, e, rest) => p < S n /\ nth_error qs p = Some (e :: rest) /\ (e_send e <= now)%N /\
        forall p' l e', p < p' -> p' < S n -> nth_error qs p' = Some l -> In e' l -> (now < e_send e')%N
       end).
    { intros NB. exists r. split; auto. destruct r as [[[p e] rest]|].
      - destruct IHr as (A & B & C & D). split; [lia|]. split; auto. split; auto. intros p' l' e' X Y Z I.
        destruct (Nat.eq_dec p' n) as [->|]; [rewrite E in Z; injection Z as <-; auto|]. eapply D; eauto. lia.
      - intros p l' e' X Z I. destruct (Nat.eq_dec p n) as [->|]; [rewrite E in Z; injection Z as <-; auto|]. eapply IHr; eauto. lia. }
    destruct l as [|e l]; [apply G; intros ? []|].
    destruct (N.leb_spec (e_send e) now).
    + exists (Some (n, e, l)). split; auto. split; auto. split; auto. split; auto. intros; lia.
    + apply G. intros e' [<-|I]; auto. destruct (H n _ ltac:(lia) E) as (S & _). inversion S as [|? ? S1 F]; subst.
      pose proof (proj1 (Forall_forall _ _) F e' I) as B. unfold blt in B. lia.
Qed.

Lemma pend_in_queue sp w wk q p x : WR sp w wk -> wmap q = w -> p < np -> In x (s_pend (s_q sp q p)) ->
  exists l e, nth_error (w_queues wk) p = Some l /\ In e l /\ tow e = x /\ e_q e = q.
Proof.
  intros (A & B & C & D) Hq Hp I. destruct (nth_error (w_queues wk) p) as [l|] eqn:E; [|apply nth_error_None in E; lia].
  destruct (D p l Hp E) as (_ & _ & F). rewrite <- (F q Hq) in I. apply in_map_iff in I as (e & X & Y).
  apply filter_In in Y as [Y Z]. exists l, e. unfold isq in Z. apply Nat.eqb_eq in Z. auto.
Qed.

Lemma pop_ok s sp wid now : R s sp -> exists s' x sp', l_pop np s wid now = Some (s', x) /\
  qspec ticks wmap nw np sp (OPop wid now) x sp' /\ R s' sp'.
Proof.
  intros HR. pose proof HR as (L & W & Q). unfold l_pop. destruct (nth_error (l_w s) wid) as [wk|] eqn:Ew.
  2:{ do 3 eexists. split; [reflexivity|]. split; [apply qs_pop_throw; apply nth_error_None in Ew; lia|auto]. }
  assert (WL : wid < nw) by (rewrite <- L; apply nth_error_Some; congruence).
  pose proof (W _ _ Ew) as WW. pose proof WW as (W1 & W2 & W3 & W4).
  destruct (Nat.eqb_spec (w_size wk) 0) as [Z|NZ].
  { do 3 eexists. split; [reflexivity|]. split; [|exact HR]. apply qs_pop_block; auto. intros q pri x Hq Hp I. exfalso.
    destruct (pend_in_queue _ _ _ _ _ _ WW Hq Hp I) as (l & e & A & B & _).
    rewrite W3 in Z. assert (G : forall n, sum_to (fun p => length (nth p (w_queues wk) [])) n = 0 -> pri < n -> length (nth pri (w_queues wk) []) = 0).
    { induction n; cbn; intros; [lia|]. destruct (Nat.eq_dec pri n) as [->|]; [lia|]. apply IHn; lia. }
    specialize (G np Z Hp). rewrite (nth_error_nth _ _ _ A) in G. destruct l; [destruct B|discriminate]. }
  destruct (find_pri_ok wid (w_cnt wk) (fun p q => s_pend (s_q sp q p)) (w_queues wk) now np (le_n _) W1 W4) as (r & -> & FR).
  destruct r as [[[pri e] rest]|].
  2:{ do 3 eexists. split; [reflexivity|]. split; [|exact HR]. apply qs_pop_block; auto. intros q pri x Hq Hp I.
      destruct (pend_in_queue _ _ _ _ _ _ WW Hq Hp I) as (l & e & A & B & <- & _). unfold w_send, tow; cbn. eapply FR; eauto. }
  destruct FR as (PL & EP & SN & HI). destruct (W4 pri _ PL EP) as (X1 & X2 & X3).
  inversion X2 as [|? ? [I1 I2] X2']; subst. inversion X1 as [|? ? X1' X1f]; subst.
  pose proof (Q (e_q e)) as QQ.
  assert (PD : s_pend (s_q sp (e_q e) pri) = tow e :: map tow (filter (isq (e_q e)) rest)).
  { rewrite <- X3 by auto. cbn [filter]. unfold isq at 1. rewrite Nat.eqb_refl. reflexivity. }
  destruct (l_q s (e_q e)) as [qi|] eqn:Eq.
  2:{ cbn in QQ. destruct (QQ pri) as (_ & B & _). rewrite B in PD. discriminate. }
  pose proof QQ as (QA & QB & QC & QD).
  destruct (nth_error (qi_pri qi) pri) as [qp|] eqn:Ep; [|apply nth_error_None in Ep; lia].
  do 3 eexists. split; [reflexivity|]. split.
  { change (e_item e) with (w_item (tow e)). eapply qs_pop; [exact WL|reflexivity|exact PL|exact PD|exact SN| |].
    - intros q' pri' y Hq L1 L2 I. destruct (pend_in_queue _ _ _ _ _ _ WW Hq L2 I) as (l & e' & A & B & <- & _). unfold w_send, tow; cbn. eapply HI; eauto.
    - intros q' y Hq I. destruct (pend_in_queue _ _ _ _ _ _ WW Hq PL I) as (l & e' & A & B & <- & _).
      rewrite EP in A. injection A as <-. unfold goes_first, w_send, w_arr, tow; cbn. destruct B as [<-|B]; [right; auto|].
      pose proof (proj1 (Forall_forall _ _) X1f e' B) as BB. unfold blt in BB. lia. }
  set (wid := wmap (e_q e)) in *. pose proof (QD _ _ Ep) as (P1 & P2 & P3 & P4 & P5). rewrite PD in P1, P5.
  split; cbn [l_w l_q l_cap l_rate]; [rewrite list_set_length; auto|]. split.
  - intros w wk' H. destruct (Nat.eq_dec w wid) as [->|N].
    + rewrite nth_error_list_set_eq in H by lia. injection H as <-. unfold WR; cbn [w_queues w_cnt w_size s_arr s_q].
      split; [rewrite list_set_length; auto|]. split; [auto|]. split.
      * pose proof (sum_to_upd (fun p => length (nth p (w_queues wk) [])) (fun p => length (nth p (list_set (w_queues wk) pri rest) [])) np pri PL) as S.
        cbn beta in S. rewrite nth_list_set_eq in S by lia. rewrite (nth_error_nth _ _ _ EP) in S. cbn [length] in S.
        specialize (S ltac:(intros; rewrite nth_list_set_neq by auto; auto)). lia.
      * intros p l PL' H. destruct (Nat.eq_dec p pri) as [->|N].
        -- rewrite nth_error_list_set_eq in H by lia. injection H as <-. split; auto. split; auto.
           intros q' Hq. destruct (Nat.eq_dec q' (e_q e)) as [->|N].
           ++ rewrite upd_eq. auto.
           ++ rewrite upd_neq by auto. rewrite <- X3 by auto. cbn [filter]. unfold isq at 2.
              destruct (Nat.eqb_spec (e_q e) q'); [congruence|]. auto.
        -- rewrite nth_error_list_set_neq in H by auto. destruct (W4 p l PL' H) as (Y1 & Y2 & Y3). split; auto. split; auto.
           intros q' Hq. rewrite upd_neq by auto. auto.
    + rewrite nth_error_list_set_neq in H by auto. destruct (W w wk' H) as (Y1 & Y2 & Y3 & Y4).
      split; auto. cbn [s_arr s_q] in *. split; auto. split; auto.
      intros p l PL' H'. destruct (Y4 p l PL' H') as (Z1 & Z2 & Z3). split; auto. split; auto.
      intros q' Hq. rewrite upd_neq by (left; intros ->; unfold wid in N; congruence). auto.
  - intros q'. cbn [s_q]. unfold updq. destruct (Nat.eqb_spec q' (e_q e)) as [->|N].
    + assert (SZ : 1 <= qi_size qi).
      { rewrite QB. clear -PD PL. assert (G : forall n, pri < n -> length (s_pend (s_q sp (e_q e) pri)) <= sum_to (fun p => length (s_pend (s_q sp (e_q e) p))) n).
        { induction n; cbn; intros; [lia|]. destruct (Nat.eq_dec pri n) as [->|]; [lia|]. specialize (IHn ltac:(lia)). lia. }
        specialize (G np PL). rewrite PD in G at 1. cbn in G. lia. }
      eapply QR_upd with (x := s_q sp (e_q e)) (qp := qp); [exact QQ|exact Ep| | |apply upd_eq|intros; apply upd_neq; auto].
      * unfold PR; cbn [qp_size qp_cap qp_delay qp_last s_pend s_cap s_delay s_last]. rewrite P1. cbn [length]. inversion P5; subst. repeat (split; auto); lia.
      * rewrite PD. cbn [s_pend length]. lia.
    + eapply QR_same; [apply Q|]. intros p. rewrite upd_neq by auto. reflexivity.
Qed.

Lemma QR_map cap rate qi x f g : QR cap rate (Some qi) x -> (forall qp y, PR qp y -> PR (f qp) (g y)) ->
  (forall y, s_pend (g y) = s_pend y /\ s_last (g y) = s_last y) ->
  forall x' cap' rate', (forall p, x' p = g (x p)) -> QR cap' rate' (Some (mkQi (map f (qi_pri qi)) (qi_size qi))) x'.
Proof.
  intros (A & B & C & D) H G x' cap' rate' E. split; cbn [qi_pri qi_size]; [rewrite map_length; auto|]. split.
  - rewrite B. apply sum_to_ext. intros p _. rewrite E. destruct (G (x p)) as [-> _]. auto.
  - split; [intros p; rewrite E; destruct (G (x p)) as [_ ->]; auto|].
    intros p qp Hp. rewrite nth_error_map in Hp. destruct (nth_error (qi_pri qi) p) as [qp0|] eqn:E0; [|discriminate]. injection Hp as <-.
    rewrite E. auto.
Qed.

Lemma cap_PR c qp (y : sq T) : PR qp y -> PR (with_cap c qp) (set_cap c y).
Proof. intros (A & B & C & D & E). unfold PR; cbn. auto. Qed.
Lemma rate_PR pps qp (y : sq T) : PR qp y -> PR (with_rate ticks pps qp) (set_delay (ticks pps) y).
Proof. intros (A & B & C & D & E). unfold PR; cbn. auto. Qed.

Lemma for_each_ok f g s sp q now : R s sp -> (forall qp (y : sq T), PR qp y -> PR (f qp) (g y)) ->
  (forall y, s_pend (g y) = s_pend y /\ s_last (g y) = s_last y) ->
  R (for_each ticks np f s q now) (mkSst (fun q' p' => let x := mention q now (s_q sp) q' p' in if q' =? q then g x else x) (s_arr sp)).
Proof.
  intros HR F G. unfold for_each. destruct (get_queue ticks np s q now) as [s1 qi] eqn:GQ.
  destruct (get_queue_ok _ _ _ _ _ _ HR GQ) as ((L & W & Q) & EQ & EW & EC & ER).
  split; auto. split.
  - intros w wk H. eapply WR_ext; [apply W; exact H| |reflexivity]. intros q' p. cbn [s_q]. destruct (q' =? q); auto. apply G.
  - intros q'. cbn [s_q set_q l_q l_cap l_rate]. unfold updq. pose proof (Q q') as QQ. cbn [s_q] in QQ. destruct (Nat.eqb_spec q' q) as [->|N].
    + rewrite EQ in QQ. eapply QR_map; eauto.
    + exact QQ.
Qed.

Lemma for_one_ok f g s sp q pri now : R s sp -> (forall qp (y : sq T), PR qp y -> PR (f qp) (g y)) ->
  (forall y, s_pend (g y) = s_pend y /\ s_last (g y) = s_last y) ->
  (exists s', for_one ticks np f s q pri now = (s', QDone) /\ pri < np /\
     R s' (mkSst (upd (mention q now (s_q sp)) q pri (g (mention q now (s_q sp) q pri))) (s_arr sp))) \/
  (exists s', for_one ticks np f s q pri now = (s', QThrow) /\ np <= pri /\ R s' (mkSst (mention q now (s_q sp)) (s_arr sp))).
Proof.
  intros HR F G. unfold for_one. destruct (get_queue ticks np s q now) as [s1 qi] eqn:GQ.
  destruct (get_queue_ok _ _ _ _ _ _ HR GQ) as (R1 & EQ & EW & EC & ER). pose proof R1 as (L & W & Q).
  pose proof (Q q) as QQ. rewrite EQ in QQ. pose proof QQ as (QA & QB & QC & QD).
  destruct (nth_error (qi_pri qi) pri) as [qp|] eqn:Ep.
  - left. eexists. split; [reflexivity|]. split; [rewrite <- QA; apply nth_error_Some; congruence|]. cbn [s_q] in *.
    set (f0 := mention q now (s_q sp)) in *.
    split; auto. split.
    + intros w wk H. eapply WR_ext; [apply W; exact H| |reflexivity]. intros q' p. cbn [s_q]. unfold upd.
      destruct ((q' =? q) && (p =? pri)) eqn:X; auto. apply andb_true_iff in X as [X1 X2]. apply Nat.eqb_eq in X1, X2. subst. apply G.
    + intros q'. cbn [s_q set_q l_q l_cap l_rate]. unfold updq. destruct (Nat.eqb_spec q' q) as [->|N].
      * eapply QR_upd with (x := f0 q) (qp := qp); [exact QQ|exact Ep|apply F; apply QD; exact Ep| |apply upd_eq|intros; apply upd_neq; auto].
        destruct (G (f0 q pri)) as [-> _]. auto.
      * eapply QR_same; [apply Q|]. intros p. rewrite upd_neq by auto. reflexivity.
  - right. eexists. split; [reflexivity|]. split; [rewrite <- QA; apply nth_error_None; auto|auto].
Qed.

Lemma step_ok s sp o : R s sp -> exists s' x sp', l_step ticks wmap np s o = Some (s', x) /\
  qspec ticks wmap nw np sp o x sp' /\ R s' sp'.
Proof.
  intros HR. destruct o as [q pri item now0 now|w now|q|q pri|q c now|q pri c now|c|q pps now|q pri pps now|pps]; cbn [l_step].
  - apply push_ok; auto.
  - apply pop_ok; auto.
  - exists s, (l_size s q), sp. split; auto. split; auto. unfold l_size. destruct HR as (L & W & Q). specialize (Q q).
    destruct (l_q s q) as [qi|]; cbn in Q.
    + destruct Q as (_ & -> & _). apply qs_size.
    + rewrite <- (sum_to_zero (fun p => length (s_pend (s_q sp q p))) np); [apply qs_size|]. intros p _. destruct (Q p) as (_ & -> & _). auto.
  - exists s, (l_size_pri s q pri), sp. split; auto. split; auto. unfold l_size_pri. destruct HR as (L & W & Q). specialize (Q q).
    destruct (l_q s q) as [qi|]; cbn in Q.
    + destruct Q as (A & _ & B & D). destruct (nth_error (qi_pri qi) pri) as [qp|] eqn:E.
      * destruct (D _ _ E) as (-> & _). apply qs_size_pri. rewrite <- A. apply nth_error_Some. congruence.
      * apply qs_size_bad; auto. rewrite <- A. apply nth_error_None. auto.
    + destruct (Nat.lt_ge_cases pri np) as [LT|GE].
      * assert (E : length (s_pend (s_q sp q pri)) = 0) by (destruct (Q pri) as (_ & -> & _); auto). rewrite <- E. apply qs_size_pri. auto.
      * apply qs_size_bad0; auto. apply Q.
  - do 3 eexists. split; [reflexivity|]. split; [apply qs_cap|]. apply for_each_ok; auto. intros; apply cap_PR; auto.
  - destruct (for_one_ok (with_cap c) (set_cap c) s sp q pri now HR (cap_PR c) ltac:(auto)) as [(s' & -> & A & B)|(s' & -> & A & B)].
    + do 3 eexists. split; [reflexivity|]. split; [apply qs_cap_pri; auto|auto].
    + do 3 eexists. split; [reflexivity|]. split; [apply qs_cap_throw; auto|auto].
  - do 3 eexists. split; [reflexivity|]. split; [apply qs_cap_all|]. destruct HR as (L & W & Q). split; auto. split.
    + intros w wk H. eapply WR_ext; [apply W; exact H| |reflexivity]. reflexivity.
    + intros q. cbn [l_q l_cap l_rate s_q]. unfold all_q. specialize (Q q). destruct (l_q s q) as [qi|]; cbn [option_map].
      * eapply QR_map; [exact Q|apply cap_PR with (c := c)|auto|auto].
      * intros p. destruct (Q p) as (A & B & C & D). cbn. auto.
  - do 3 eexists. split; [reflexivity|]. split; [apply qs_rate|]. apply for_each_ok; auto. intros; apply rate_PR; auto.
  - destruct (for_one_ok (with_rate ticks pps) (set_delay (ticks pps)) s sp q pri now HR (rate_PR pps) ltac:(auto)) as [(s' & -> & A & B)|(s' & -> & A & B)].
    + do 3 eexists. split; [reflexivity|]. split; [apply qs_rate_pri; auto|auto].
    + do 3 eexists. split; [reflexivity|]. split; [apply qs_rate_throw; auto|auto].
  - do 3 eexists. split; [reflexivity|]. split; [apply qs_rate_all|]. destruct HR as (L & W & Q). split; auto. split.
    + intros w wk H. eapply WR_ext; [apply W; exact H| |reflexivity]. reflexivity.
    + intros q. cbn [l_q l_cap l_rate s_q]. unfold all_q. specialize (Q q). destruct (l_q s q) as [qi|]; cbn [option_map].
      * eapply QR_map; [exact Q|apply rate_PR with (pps := pps)|auto|auto].
      * intros p. destruct (Q p) as (A & B & C & D). cbn. auto.
Qed.

Theorem run_ok ops : forall s sp, R s sp -> exists s' outs sp', l_run ticks wmap np s ops = Some (s', outs) /\
  qspec_run ticks wmap nw np sp ops outs sp' /\ R s' sp'.
Proof.
  induction ops as [|o ops IH]; intros s sp HR.
  - exists s, [], sp. split; [reflexivity|]. split; [constructor|auto].
  - destruct (step_ok s sp o HR) as (s1 & x & sp1 & E & S & R1). destruct (IH s1 sp1 R1) as (s2 & xs & sp2 & E2 & S2 & R2).
    exists s2, (x :: xs), sp2. cbn [l_run]. rewrite E, E2. split; [reflexivity|]. split; [econstructor; eauto|auto].
Qed.
End P.
