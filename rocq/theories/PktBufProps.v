(** Theorems about packet buffers (C22). *)
From Coq Require Import List Arith NArith Bool Lia.
From Verif Require Import PktBufModel PktBufSpec.
Import ListNotations.

Lemma set_nth_eq {A} (l : list A) i x : i < length l -> nth_error (set_nth l i x) i = Some x.
Proof.
  intros H. unfold set_nth. rewrite nth_error_app2; rewrite firstn_length_le by lia; [|lia]. rewrite Nat.sub_diag. auto.
Qed.
Lemma set_nth_neq {A} (l : list A) i j x : i < length l -> i <> j -> nth_error (set_nth l i x) j = nth_error l j.
Proof.
  intros H N. rewrite <- (firstn_skipn i l) at 2. unfold set_nth. destruct (Nat.lt_ge_cases j i).
  - rewrite !nth_error_app1 by (rewrite firstn_length_le; lia). auto.
  - rewrite !nth_error_app2; rewrite firstn_length_le by lia; try lia. destruct (j - i) as [|k] eqn:E; [lia|].
    cbn [nth_error]. destruct (skipn i l) as [|y t] eqn:SK.
    + assert (length (skipn i l) = 0) by (rewrite SK; auto). rewrite skipn_length in H1. lia.
    + cbn [nth_error]. replace (skipn (S i) l) with t; auto.
      clear - SK. revert l SK. induction i; intros l SK; [cbn in SK; subst; auto|]. destruct l; [discriminate|]. cbn in *. apply IHi in SK. auto.
Qed.
Lemma set_nth_len {A} (l : list A) i x : i < length l -> length (set_nth l i x) = length l.
Proof. intros H. unfold set_nth. rewrite app_length, firstn_length_le by lia. cbn [length]. rewrite skipn_length. lia. Qed.
Lemma put_set s id p : put_pkt s id p = set_nth s id p.
Proof. reflexivity. Qed.

(** Block [blk] of a buffer with head at [h] and packet [p]. *)
Definition BR (blk : list N) (b : pbuf) (p : pkt) : Prop :=
  blk = rev (room p) ++ body p /\ pb_head b = length (room p) /\ pb_data b = length (body p) /\ pb_size b = length blk.
Definition R (h : heap) (s : pkts) : Prop :=
  length (blocks h) = length s /\ length (bufs h) = length s /\
  forall id p, nth_error s id = Some p -> exists b blk, nth_error (bufs h) id = Some b /\ nth_error (blocks h) id = Some blk /\ pb_blk b = id /\ BR blk b p.

Lemma R_empty : R h_empty [].
Proof. split; auto. split; auto. intros [|id] p; discriminate. Qed.

Lemma BR_len blk b p : BR blk b p -> length blk = length (room p) + length (body p).
Proof. intros (-> & _). rewrite app_length, rev_length. auto. Qed.

Lemma rev_skipn {A} n (l : list A) : rev (skipn n l) = firstn (length l - n) (rev l).
Proof.
  rewrite <- (firstn_skipn n l) at 2 3. rewrite rev_app_distr. rewrite app_length.
  replace (length (firstn n l) + length (skipn n l) - n) with (length (rev (skipn n l)) + 0).
  - rewrite firstn_app_2. cbn. rewrite app_nil_r. auto.
  - rewrite rev_length, firstn_length, skipn_length. lia.
Qed.
Lemma grow_BR blk b p n : BR blk b p -> n <= length (room p) -> BR blk (mkPb (pb_size b) (pb_data b + n) (pb_blk b) (pb_head b - n)) (grow n p).
Proof.
  intros (E & H & D & S) L. unfold BR, grow; cbn. rewrite skipn_length, app_length, rev_length, firstn_length_le by lia.
  split; [|repeat split; lia]. rewrite E, app_assoc, <- rev_app_distr, firstn_skipn. auto.
Qed.
Lemma shrink_BR blk b p n : BR blk b p -> n <= length (body p) -> BR blk (mkPb (pb_size b) (pb_data b - n) (pb_blk b) (pb_head b + n)) (shrink n p).
Proof.
  intros (E & H & D & S) L. unfold BR, shrink; cbn. rewrite skipn_length, app_length, rev_length, firstn_length_le by lia.
  split; [|repeat split; lia]. rewrite E, rev_app_distr, rev_involutive, <- app_assoc, firstn_skipn. auto.
Qed.

Lemma BR_blk blk b b' p : BR blk b p -> pb_size b' = pb_size b -> pb_data b' = pb_data b -> pb_head b' = pb_head b -> BR blk b' p.
Proof. intros (E & H & D & S) A B C. unfold BR. rewrite A, B, C. auto. Qed.

Lemma R_put_buf h s id b b' blk p p' : R h s -> nth_error s id = Some p -> nth_error (bufs h) id = Some b -> nth_error (blocks h) id = Some blk ->
  pb_blk b' = id -> BR blk b' p' -> R (upd_buf h id b') (put_pkt s id p').
Proof.
  intros (L1 & L2 & H) E1 E2 E3 E4 HB. assert (Hid : id < length s) by (apply nth_error_Some; congruence). rewrite put_set.
  split; cbn [upd_buf blocks bufs]; [rewrite set_nth_len by lia; auto|]. split; [rewrite !set_nth_len by lia; auto|].
  intros i q Hq. destruct (Nat.eq_dec i id) as [->|N].
  - rewrite set_nth_eq in Hq by lia. injection Hq as <-. exists b', blk. rewrite set_nth_eq by lia. auto.
  - rewrite set_nth_neq in Hq by lia. rewrite set_nth_neq by lia. auto.
Qed.
Lemma R_put_blk h s id b blk blk' p p' : R h s -> nth_error s id = Some p -> nth_error (bufs h) id = Some b -> nth_error (blocks h) id = Some blk ->
  pb_blk b = id -> BR blk' b p' -> R (mkH (set_nth (blocks h) id blk') (bufs h)) (put_pkt s id p').
Proof.
  intros (L1 & L2 & H) E1 E2 E3 E4 HB. assert (Hid : id < length s) by (apply nth_error_Some; congruence). rewrite put_set.
  split; cbn [blocks bufs]; [rewrite !set_nth_len by lia; auto|]. split; [rewrite !set_nth_len by lia; auto|].
  intros i q Hq. destruct (Nat.eq_dec i id) as [->|N].
  - rewrite set_nth_eq in Hq by lia. injection Hq as <-. exists b, blk'. rewrite set_nth_eq by lia. auto.
  - rewrite set_nth_neq in Hq by lia. rewrite set_nth_neq by lia. auto.
Qed.

Lemma firstn_app_exact {A} (a b : list A) : firstn (length a) (a ++ b) = a.
Proof. replace (length a) with (length a + 0) by lia. rewrite firstn_app_2. cbn. apply app_nil_r. Qed.
Lemma skipn_app_exact {A} n (a b : list A) : skipn (length a + n) (a ++ b) = skipn n b.
Proof. induction a; cbn; auto. Qed.

Lemma make_ok h s junk data : R h s -> length data <= length junk ->
  exists h', pb_make h junk data = Some (h', length s) /\ R h' (s ++ [mkPkt (rev (firstn (length junk - length data) junk)) data]).
Proof.
  intros (L1 & L2 & H) L. unfold pb_make, pb_push. cbn [pb_data pb_size pb_head pb_blk plus].
  destruct (Nat.leb_spec (length data) (length junk)); [|lia]. unfold pb_write. cbn [pb_blk blocks bufs pb_head].
  rewrite nth_error_app2 by lia. rewrite Nat.sub_diag. cbn [nth_error]. rewrite Nat.add_0_r. replace (length junk - length data + length data) with (length junk) by lia.
  rewrite Nat.leb_refl. eexists. rewrite L2. split; [reflexivity|]. cbn [blocks bufs].
  assert (E : set_nth (blocks h ++ [junk]) (length (blocks h)) (splice (length junk - length data) data junk) = blocks h ++ [splice (length junk - length data) data junk]).
  { unfold set_nth. rewrite firstn_app_exact. replace (S (length (blocks h))) with (length (blocks h) + 1) by lia. rewrite skipn_app_exact. auto. }
  rewrite E. clear E. split; cbn [blocks bufs]; [rewrite !app_length; cbn; lia|]. split; [rewrite !app_length; cbn; lia|].
  intros id p Hp. destruct (Nat.lt_ge_cases id (length s)) as [Lt|Ge].
  - rewrite nth_error_app1 in Hp by auto. destruct (H id p Hp) as (b & blk & A & B & C). exists b, blk. rewrite !nth_error_app1 by lia. auto.
  - assert (id = length s).
    { assert (id < length (s ++ [mkPkt (rev (firstn (length junk - length data) junk)) data])) by (apply nth_error_Some; congruence). rewrite app_length in H1; cbn in H1; lia. }
    subst id. rewrite nth_error_app2, Nat.sub_diag in Hp by lia. cbn in Hp. injection Hp as <-. do 2 eexists.
    rewrite !nth_error_app2 by lia. rewrite L1, L2, Nat.sub_diag. cbn [nth_error]. split; [reflexivity|]. split; [reflexivity|]. split; [auto|].
    unfold BR; cbn [room body pb_head pb_data pb_size]. unfold splice. replace (length junk - length data + length data) with (length junk) by lia. rewrite skipn_all, app_nil_r.
    rewrite rev_involutive. split; auto. rewrite rev_length, app_length, !firstn_length_le by lia. repeat split; lia.
Qed.

Lemma splice_app a b w off : splice (length a + off) w (a ++ b) = a ++ splice off w b.
Proof.
  unfold splice. rewrite firstn_app_2, <- Nat.add_assoc, skipn_app_exact, <- app_assoc. auto.
Qed.
Lemma splice_len off w l : off + length w <= length l -> length (splice off w l) = length l.
Proof. intros H. unfold splice. rewrite !app_length, firstn_length_le, skipn_length by lia. lia. Qed.

(** Every call allowed by the specification succeeds, gives the specified answer and leads to a related
    state. *)
Lemma step_ok h s o : R h s -> legal s o -> exists h' x s', b_step h o = Some (h', x) /\ bspec s o x s' /\ R h' s'.
Proof.
  intros HR (x0 & s0 & L). pose proof HR as (L1 & L2 & H). destruct L; cbn [b_step].
  - destruct (make_ok h s junk data HR H0) as (h' & -> & R'). do 3 eexists. split; [reflexivity|]. split; [apply bs_new; auto|auto].
  - destruct (H id p H0) as (b & blk & A & B & C & D). rewrite A. pose proof (BR_len _ _ _ D) as LB. pose proof D as (D1 & D2 & D3 & D4).
    unfold pb_push. destruct (Nat.leb_spec (pb_data b + n) (pb_size b)); [|lia]. destruct (Nat.leb_spec n (pb_head b)); [|lia].
    do 3 eexists. split; [reflexivity|]. split; [eapply bs_push; eauto|]. eapply R_put_buf; eauto. apply grow_BR; auto.
  - destruct (H id p H0) as (b & blk & A & B & C & D). rewrite A. pose proof (BR_len _ _ _ D) as LB. pose proof D as (D1 & D2 & D3 & D4).
    unfold pb_pop. destruct (Nat.leb_spec n (pb_data b)); [|lia].
    do 3 eexists. split; [reflexivity|]. split; [eapply bs_pop; eauto|]. eapply R_put_buf; eauto. apply shrink_BR; auto.
  - destruct (H id p H0) as (b & blk & A & B & C & D). rewrite A. pose proof (BR_len _ _ _ D) as LB. pose proof D as (D1 & D2 & D3 & D4).
    destruct (Nat.leb_spec (off + length w) (pb_data b)); [|lia]. unfold pb_write. rewrite C, B.
    destruct (Nat.leb_spec (pb_head b + off + length w) (length blk)); [|lia].
    do 3 eexists. split; [reflexivity|]. split; [eapply bs_write; eauto|]. eapply R_put_blk; eauto.
    unfold BR; cbn [room body]. rewrite D1, D2. rewrite <- (rev_length (room p)), splice_app.
    split; auto. rewrite rev_length. split; auto. split.
    + rewrite D3. fold (splice off w (body p)). rewrite splice_len; auto.
    + rewrite app_length, splice_len, rev_length by auto. lia.
  - destruct (H id p H0) as (b & blk & A & B & C & D). rewrite A, C, B. pose proof (BR_len _ _ _ D) as LB. pose proof D as (D1 & D2 & D3 & D4).
    destruct (Nat.leb_spec (pb_head b + pb_data b) (length blk)); [|lia].
    do 3 eexists. split; [reflexivity|]. split; [|exact HR]. rewrite D1, D2, D3. rewrite <- (rev_length (room p)).
    replace (length (rev (room p))) with (length (rev (room p)) + 0) by lia. rewrite skipn_app_exact. cbn [skipn]. rewrite firstn_all. apply bs_read. auto.
  - destruct (H id p H0) as (b & blk & A & B & C & D). rewrite A. pose proof D as (D1 & D2 & D3 & D4).
    do 3 eexists. split; [reflexivity|]. split; [|exact HR]. eapply bs_save; eauto.
  - destruct (H id p H0) as (b & blk & A & B & C & D). rewrite A. pose proof (BR_len _ _ _ D) as LB. pose proof D as (D1 & D2 & D3 & D4).
    rewrite C, H1, Nat.eqb_refl. do 3 eexists. split; [reflexivity|]. split; [eapply bs_restore; eauto|]. eapply R_put_buf; eauto.
    unfold resize. destruct (Nat.leb_spec (length (body p)) (st_data st)).
    + eapply BR_blk; [eapply grow_BR; [exact D|lia]| | |]; cbn; lia.
    + eapply BR_blk; [eapply shrink_BR; [exact D|lia]| | |]; cbn; lia.
  - destruct (H id p H0) as (b & blk & A & B & C & D). rewrite A, C, B. pose proof (BR_len _ _ _ D) as LB. pose proof D as (D1 & D2 & D3 & D4).
    destruct (Nat.leb_spec k (pb_data b)); [|lia]. rewrite H2. replace (length (room p) + length (body p) =? pb_size b) with true by (symmetry; apply Nat.eqb_eq; lia).
    cbn [andb]. destruct (Nat.leb_spec (pb_size b) (length blk)); [|lia].
    assert (E : firstn k (skipn (pb_size b - k) blk) = skipn (length (body p) - k) (body p)).
    { rewrite D1. replace (pb_size b - k) with (length (rev (room p)) + (length (body p) - k)) by (rewrite rev_length; lia).
      rewrite skipn_app_exact. apply firstn_all2. rewrite skipn_length. lia. }
    rewrite E. assert (LE : length (skipn (length (body p) - k) (body p)) = k) by (rewrite skipn_length; lia).
    destruct (make_ok h s junk (skipn (length (body p) - k) (body p)) HR ltac:(lia)) as (h' & -> & R'). rewrite LE in R'.
    do 3 eexists. split; [reflexivity|]. split; [eapply bs_clone; eauto|auto].
Qed.

(** ** C22: every history of contract-respecting calls on any number of buffers behaves as specified *)
Theorem C22_history : forall ops, legal_run [] ops ->
  exists h outs s, b_run h_empty ops = Some (h, outs) /\ bspec_run [] ops outs s.
Proof.
  assert (G : forall ops h s, R h s -> legal_run s ops -> exists h' outs s', b_run h ops = Some (h', outs) /\ bspec_run s ops outs s').
  { induction ops as [|o ops IH]; intros h s HR L.
    - exists h, [], s. split; [reflexivity|constructor].
    - inversion L as [|s0 o0 os0 A B]; subst. destruct (step_ok h s o HR A) as (h1 & x & s1 & E & S & R1). destruct (IH h1 s1 R1 (B _ _ S)) as (h2 & xs & s2 & E2 & S2).
      exists h2, (x :: xs), s2. cbn [b_run]. rewrite E, E2. split; [reflexivity|econstructor; eauto]. }
  intros ops L. apply (G ops _ _ R_empty L).
Qed.

(** A push that does not fit in the headroom, a pop of more than the packet, a write outside the packet and
    a clone of more than the packet are refused, after every history. *)
Lemma run_rel ops : forall h s, R h s -> legal_run s ops -> forall h' outs, b_run h ops = Some (h', outs) ->
  exists s', bspec_run s ops outs s' /\ R h' s'.
Proof.
  induction ops as [|o ops IH]; intros h s HR L h' outs E; cbn [b_run] in E.
  - injection E as <- <-. exists s. split; [constructor|auto].
  - inversion L as [|s0 o0 os0 A B]; subst. destruct (step_ok h s o HR A) as (h1 & x & s1 & E1 & S & R1). rewrite E1 in E.
    destruct (b_run h1 ops) as [[h2 xs]|] eqn:E2; [|discriminate]. injection E as <- <-.
    destruct (IH h1 s1 R1 (B _ _ S) _ _ E2) as (s' & S' & R'). exists s'. split; auto. econstructor; eauto.
Qed.
Theorem C22_out_of_bounds_refused : forall ops h outs, legal_run [] ops -> b_run h_empty ops = Some (h, outs) ->
  exists s, bspec_run [] ops outs s /\ forall id p, nth_error s id = Some p ->
    (forall n, length (room p) < n -> b_step h (BPush id n) = None) /\
    (forall n, length (body p) < n -> b_step h (BPop id n) = None) /\
    (forall off w, length (body p) < off + length w -> b_step h (BWrite id off w) = None) /\
    (forall k junk, length (body p) < k -> b_step h (BClone id k junk) = None).
Proof.
  intros ops h outs L E. destruct (run_rel ops _ _ R_empty L _ _ E) as (s & S & HR). exists s. split; auto.
  destruct HR as (L1 & L2 & H). intros id p Hp. destruct (H id p Hp) as (b & blk & A & B & C & D). pose proof (BR_len _ _ _ D) as LB. destruct D as (D1 & D2 & D3 & D4).
  cbn [b_step]. rewrite A. split; [|split; [|split]].
  - intros n Hn. unfold pb_push. destruct (Nat.leb_spec (pb_data b + n) (pb_size b)); [lia|auto].
  - intros n Hn. unfold pb_pop. destruct (Nat.leb_spec n (pb_data b)); [lia|auto].
  - intros off w Hn. destruct (Nat.leb_spec (off + length w) (pb_data b)); [lia|auto].
  - intros k junk Hn. destruct (Nat.leb_spec k (pb_data b)); [lia|auto].
Qed.

(** ** Consequences, in terms of what is read *)
Lemma run_snoc_spec ops : forall s outs s' o x s'', bspec_run s ops outs s' -> bspec s' o x s'' -> bspec_run s (ops ++ [o]) (outs ++ [x]) s''.
Proof. intros s outs s' o x s'' H. induction H; intros; cbn; econstructor; eauto. constructor. Qed.

(** Pushing [n] bytes and writing them puts exactly these bytes in front of the packet; popping removes
    exactly the first [n] bytes; the other packets are untouched. *)
Theorem C22_push_write : forall s id p w, nth_error s id = Some p -> length w <= length (room p) ->
  exists s1 s2 p2, bspec s (BPush id (length w)) BDone s1 /\ bspec s1 (BWrite id 0 w) BDone s2 /\
    nth_error s2 id = Some p2 /\ body p2 = w ++ body p /\ room p2 = skipn (length w) (room p) /\
    forall j, j <> id -> nth_error s2 j = nth_error s j.
Proof.
  intros s id p w E L. assert (Hid : id < length s) by (apply nth_error_Some; congruence).
  assert (LB : length (body (grow (length w) p)) = length w + length (body p)) by (cbn; rewrite app_length, rev_length, firstn_length_le by lia; auto).
  eexists _, _, _. split; [eapply bs_push; eauto|]. split.
  { eapply bs_write; [rewrite put_set, set_nth_eq by auto; reflexivity|lia]. }
  rewrite !put_set. assert (Hid2 : id < length (set_nth s id (grow (length w) p))) by (rewrite set_nth_len by auto; auto).
  rewrite set_nth_eq by auto. split; [reflexivity|]. cbn [body room]. cbn [plus firstn app]. split; [|split; [reflexivity|]].
  - f_equal. unfold grow; cbn [body]. replace (length w) with (length (rev (firstn (length w) (room p))) + 0) at 1 by (rewrite rev_length, firstn_length_le by lia; lia).
    rewrite skipn_app_exact. auto.
  - intros j N. rewrite !set_nth_neq by auto. rewrite put_set, set_nth_neq by auto. auto.
Qed.
Theorem C22_pop : forall s id n s', bspec s (BPop id n) BDone s' -> exists p p', nth_error s id = Some p /\ nth_error s' id = Some p' /\
  body p' = skipn n (body p) /\ forall j, j <> id -> nth_error s' j = nth_error s j.
Proof.
  intros s id n s' H. inversion H; subst. assert (Hid : id < length s) by (apply nth_error_Some; congruence).
  exists p, (shrink n p). rewrite put_set, set_nth_eq by auto. split; auto. split; auto. split; auto. intros. apply set_nth_neq; auto.
Qed.

(** Which packet a call may change. *)
Definition target (o : bop) : option nat :=
  match o with BPush id _ | BPop id _ | BWrite id _ _ | BRestore id _ => Some id | _ => None end.
Lemma untouched s o x s' j : bspec s o x s' -> target o <> Some j -> j < length s -> nth_error s' j = nth_error s j.
Proof.
  intros H T L. destruct H; cbn in T; auto; try (rewrite nth_error_app1 by auto; auto);
    match goal with E : nth_error s ?i = Some _ |- _ => assert (i < length s) by (apply nth_error_Some; congruence) end;
    rewrite put_set; apply set_nth_neq; auto; congruence.
Qed.
Lemma len_mono s o x s' : bspec s o x s' -> length s <= length s'.
Proof.
  intros H. destruct H; auto; try (rewrite app_length; lia);
    match goal with E : nth_error s ?i = Some _ |- _ => assert (i < length s) by (apply nth_error_Some; congruence) end; rewrite put_set, set_nth_len by auto; auto.
Qed.

(** A clone holds the last [k] bytes of the packet, and no later operation on other buffers (including the
    original) changes it; the original is not changed by operations on the clone either. *)
Theorem C22_clone_independent : forall s id k junk s1 ops outs s2,
  bspec s (BClone id k junk) (BId (length s)) s1 -> bspec_run s1 ops outs s2 ->
  exists p q, nth_error s id = Some p /\ nth_error s1 (length s) = Some q /\ body q = skipn (length (body p) - k) (body p) /\ nth_error s1 id = Some p /\
    forall j, j < length s1 -> Forall (fun o => target o <> Some j) ops -> nth_error s2 j = nth_error s1 j.
Proof.
  intros s id k junk s1 ops outs s2 H S. inversion H; subst. assert (Hid : id < length s) by (apply nth_error_Some; congruence).
  exists p. eexists. split; auto. rewrite nth_error_app2, Nat.sub_diag by lia. cbn [nth_error]. split; [reflexivity|]. split; [reflexivity|].
  split; [rewrite nth_error_app1 by auto; auto|]. clear H. intros j Lj F. revert Lj F. induction S; intros Lj F; auto. inversion F; subst.
  rewrite IHS; auto; [eapply untouched; eauto|]. pose proof (len_mono _ _ _ _ H). lia.
Qed.

(** Saving a state, then any calls that write nothing in this buffer (parsing only pops), then restoring
    the state gives back exactly the packet that was saved. *)
Lemma tape_inv s o x s' j p p' : bspec s o x s' -> nth_error s j = Some p -> nth_error s' j = Some p' ->
  (forall off w, o <> BWrite j off w) -> rev (room p') ++ body p' = rev (room p) ++ body p.
Proof.
  intros H E E' W. assert (Lj : j < length s) by (apply nth_error_Some; congruence).
  destruct (Nat.eq_dec (match target o with Some i => i | None => S j end) j) as [Ej|Nj].
  2:{ rewrite (untouched _ _ _ _ j H) in E'; [|intros X; rewrite X in Nj; auto|auto]. congruence. }
  destruct H; cbn in Ej; try lia; rewrite Ej in *; clear Ej; rewrite put_set, set_nth_eq in E' by auto; injection E' as <-.
  - replace p0 with p by congruence. unfold grow; cbn. rewrite app_assoc, <- rev_app_distr, firstn_skipn. auto.
  - replace p0 with p by congruence. unfold shrink; cbn. rewrite rev_app_distr, rev_involutive, <- app_assoc, firstn_skipn. auto.
  - exfalso. eapply W. f_equal; eauto.
  - replace p0 with p by congruence. unfold resize. destruct (_ <=? _).
    + unfold grow; cbn. rewrite app_assoc, <- rev_app_distr, firstn_skipn. auto.
    + unfold shrink; cbn. rewrite rev_app_distr, rev_involutive, <- app_assoc, firstn_skipn. auto.
Qed.
Lemma tape_run ops : forall s outs s' j p, bspec_run s ops outs s' -> nth_error s j = Some p -> Forall (fun o => forall off w, o <> BWrite j off w) ops ->
  exists p', nth_error s' j = Some p' /\ rev (room p') ++ body p' = rev (room p) ++ body p.
Proof.
  induction ops as [|o ops IH]; intros s outs s' j p S E F; inversion S; subst; [eauto|]. inversion F as [|o0 os0 F1 F2]; subst.
  match goal with A : bspec s o _ _, B : bspec_run _ ops _ _ |- _ => rename A into HA; rename B into HB end.
  assert (Lj : j < length s) by (apply nth_error_Some; congruence). pose proof (len_mono _ _ _ _ HA).
  destruct (nth_error s'0 j) as [p1|] eqn:E1; [|apply nth_error_None in E1; lia].
  destruct (IH _ _ _ _ _ HB E1 F2) as (p' & A & B). exists p'. split; auto. rewrite B. eapply tape_inv; eauto.
Qed.
Theorem C22_save_restore : forall s id st ops outs s1 s2,
  bspec s (BSave id) (BState st) s -> bspec_run s ops outs s1 -> Forall (fun o => forall off w, o <> BWrite id off w) ops ->
  bspec s1 (BRestore id st) BDone s2 -> exists p p', nth_error s id = Some p /\ nth_error s2 id = Some p' /\ body p' = body p.
Proof.
  intros s id st ops outs s1 s2 H S F H2. inversion H; subst. match goal with E : nth_error s (st_blk st) = Some _ |- _ => destruct (tape_run _ _ _ _ _ _ S E F) as (p1 & A & B) end.
  assert (Lj : st_blk st < length s1) by (apply nth_error_Some; congruence).
  inversion H2; subst. rewrite put_set in *. exists p, (resize (st_data st) p0). rewrite set_nth_eq by auto. split; auto. split; auto.
  replace p0 with p1 in * by congruence. assert (TT : rev (room (resize (st_data st) p1)) ++ body (resize (st_data st) p1) = rev (room p) ++ body p).
  { rewrite <- B. eapply (tape_inv s1 (BRestore (st_blk st) st)); eauto; [|discriminate]. rewrite set_nth_eq by auto. auto. }
  assert (LT : length (room p1) + length (body p1) = length (room p) + length (body p)).
  { apply (f_equal (@length N)) in B. rewrite !app_length, !rev_length in B. auto. }
  assert (LB : length (room (resize (st_data st) p1)) = length (room p)).
  { unfold resize. destruct (Nat.leb_spec (length (body p1)) (st_data st)); cbn; [rewrite skipn_length; lia|].
    rewrite app_length, rev_length, firstn_length_le by lia. lia. }
  apply (f_equal (skipn (length (rev (room p)) + 0))) in TT. rewrite skipn_app_exact in TT. cbn [skipn] in TT.
  rewrite rev_length, <- LB, <- (rev_length (room (resize _ _))), skipn_app_exact in TT. auto.
Qed.

(** ** Non-vacuity *)
Definition ex_ops : list bop :=
  [BNew [0;0;0;0;0;0]%N [1;2;3;4]%N; BSave 0; BPop 0 3; BRead 0; BRestore 0 (mkSt 0 2 4); BRead 0; BClone 0 2 [9;9;9;9;9;9]%N; BPop 0 2; BPush 0 3; BWrite 0 0 [7;8;9]%N; BRead 0; BRead 1].
Example ex_run : option_map snd (b_run h_empty ex_ops) =
  Some [BId 0; BState (mkSt 0 2 4); BDone; BBytes [4]%N; BDone; BBytes [1;2;3;4]%N; BId 1; BDone; BDone; BDone; BBytes [7;8;9;3;4]%N; BBytes [3;4]%N].
Proof. vm_compute. reflexivity. Qed.
Lemma spec_unique s o x s' y s'' : bspec s o x s' -> bspec s o y s'' -> s' = s''.
Proof. intros A B. destruct A; inversion B; subst; try congruence; repeat match goal with P : nth_error s ?i = Some ?a, Q : nth_error s ?i = Some ?b |- _ => assert (a = b) by congruence; subst; clear Q end; auto. Qed.
Lemma legal_step s o os x s' : bspec s o x s' -> legal_run s' os -> legal_run s (o :: os).
Proof. intros A B. constructor; [exists x, s'; auto|]. intros y s'' C. rewrite <- (spec_unique _ _ _ _ _ _ A C). auto. Qed.
Example ex_legal : legal_run [] ex_ops.
Proof.
  unfold ex_ops.
  eapply legal_step; [apply bs_new; cbn; lia|]. eapply legal_step; [eapply (bs_save _ 0 _ (mkSt 0 2 4)); reflexivity|].
  eapply legal_step; [eapply bs_pop; [reflexivity|cbn; lia]|]. eapply legal_step; [eapply bs_read; reflexivity|].
  eapply legal_step; [eapply bs_restore; reflexivity|]. eapply legal_step; [eapply bs_read; reflexivity|].
  eapply legal_step; [eapply bs_clone; [reflexivity|cbn; lia|reflexivity]|]. eapply legal_step; [eapply bs_pop; [reflexivity|cbn; lia]|].
  eapply legal_step; [eapply bs_push; [reflexivity|cbn; lia]|]. eapply legal_step; [eapply bs_write; [reflexivity|cbn; lia]|].
  eapply legal_step; [eapply bs_read; reflexivity|]. eapply legal_step; [eapply bs_read; reflexivity|]. constructor.
Qed.
Print Assumptions C22_history.
Print Assumptions C22_out_of_bounds_refused.
Print Assumptions C22_push_write.
Print Assumptions C22_pop.
Print Assumptions C22_clone_independent.
Print Assumptions C22_save_restore.
