(** C63: the packet-in device manager. *)
From Coq Require Import List Arith NArith Bool Sorted Lia.
From Verif Require Import PortMonModel DevMgrModel DevMgrSpec DevMgrProofs.
Import ListNotations.

(** Whatever the interleaving of the received messages with the calls of other threads, packets reach the handler, and
    queries are answered, according to the messages received so far. *)
Theorem C63_answers : forall enf h sas acts d os, Forall2 same sas acts -> Forall small_action sas ->
  dm_run enf h dm_new acts = Some (d, os) -> answers enf h [] sas os.
Proof. intros enf h sas acts d os S SM R. exact (proj2 (run_ok enf h acts sas [] dm_new d os INV_new S SM R)). Qed.
Print Assumptions C63_answers.

(** The callbacks made are always a prefix of those that the messages call for, all of them once the receive thread
    has done its notifications, and so whenever it takes another message. *)
Theorem C63_callbacks : forall enf h sas acts d os, Forall2 same sas acts -> Forall small_action sas -> Forall no_api sas ->
  dm_run enf h dm_new acts = Some (d, os) ->
  (exists rest, cbs os ++ rest = events enf (received sas)) /\
  (exists k d' os', dm_run enf h dm_new (acts ++ repeat DNotify k) = Some (d', os ++ os') /\ cbs (os ++ os') = events enf (received sas)) /\
  (forall bs, dm_run enf h dm_new (acts ++ [DRecv bs]) <> None -> cbs os = events enf (received sas)).
Proof.
  intros enf h sas acts d os S SM NA R. pose proof (cb_run enf h acts sas [] dm_new d os [] INV_new (CB_new enf) S SM NA R) as C. cbn [app] in C.
  assert (Z : dm_todo d = [] -> cbs os = events enf (received sas)).
  { intros T. unfold CB in C. unfold events. destruct enf; [|apply C]. rewrite T in C. cbn [rest_of snd] in C. destruct C as [_ C]. rewrite app_nil_r in C. exact C. }
  split; [|split].
  - unfold CB in C. unfold events. destruct enf; [|exists []; rewrite app_nil_r; apply C]. exists (snd (rest_of (dm_mon d) (dm_todo d))). apply C.
  - destruct (drain enf h d) as (d' & os' & R' & T & F). exists (length (dm_todo d)), d', os'. rewrite run_app, R, R'. split; auto.
    assert (S2 : Forall2 same (sas ++ repeat (SOther DNotify) (length (dm_todo d))) (acts ++ repeat DNotify (length (dm_todo d)))).
    { apply Forall2_app; auto. clear. induction (length (dm_todo d)); cbn; constructor; auto. constructor. discriminate. }
    assert (R2 : dm_run enf h dm_new (acts ++ repeat DNotify (length (dm_todo d))) = Some (d', os ++ os')) by (rewrite run_app, R, R'; auto).
    assert (NR : received (sas ++ repeat (SOther DNotify) (length (dm_todo d))) = received sas).
    { clear. induction sas as [|[m|a] sas IH]; cbn; [|congruence|auto]. induction (length (dm_todo d)); auto. }
    assert (C2 := cb_run enf h _ _ [] dm_new d' (os ++ os') [] INV_new (CB_new enf) S2). cbn [app] in C2. rewrite NR in C2.
    assert (C3 : CB enf (received sas) d' (cbs (os ++ os'))).
    { apply C2; auto; apply Forall_app; split; auto; clear; induction (length (dm_todo d)); constructor; cbn; auto. }
    unfold CB in C3. unfold events. destruct enf; [|apply C3]. rewrite T in C3. cbn [rest_of snd] in C3. destruct C3 as [_ C3]. rewrite app_nil_r in C3. exact C3.
  - intros bs NZ. apply Z. rewrite run_app, R in NZ. cbn [dm_run dm_step] in NZ. destruct (dm_todo d); auto. contradiction.
Qed.
Print Assumptions C63_callbacks.

(** Nothing blocks: queries are always answered, and after at most the notifications of the last message the next one is taken. *)
Theorem C63_progress : forall enf h sas acts d os, Forall2 same sas acts -> Forall small_action sas -> dm_run enf h dm_new acts = Some (d, os) ->
  (forall a, (forall bs, a <> DRecv bs) -> a <> DNotify -> dm_run enf h dm_new (acts ++ [a]) <> None) /\
  (exists k, forall m bs, encodes m bs -> dm_run enf h dm_new (acts ++ repeat DNotify k ++ [DRecv bs]) <> None).
Proof.
  intros enf h sas acts d os S SM R. split.
  - intros a NR NN. rewrite run_app, R. cbn [dm_run]. destruct a; cbn [dm_step]; try discriminate; try (exfalso; eapply NR; reflexivity); try contradiction.
    + destruct (mon_notify (dm_mon d) p Added). discriminate.
    + destruct (mon_notify (dm_mon d) p Removed). discriminate.
  - destruct (drain enf h d) as (d' & os' & R' & T & F). exists (length (dm_todo d)). intros m bs E. rewrite run_app, R, run_app, R'. cbn [dm_run dm_step]. rewrite T.
    assert (I : INV (received sas) d') by (destruct (run_ok enf h acts sas [] dm_new d os INV_new S SM R) as [[I1 I2] _]; split; [unfold sorted in *; rewrite F; auto|intros p; rewrite F; apply I2]).
    destruct (handle_ok enf h _ _ m bs I T E) as (d2 & o2 & -> & _). discriminate.
Qed.
Print Assumptions C63_progress.

(** Every message of at least twelve bytes that does not announce more packet bytes than it has means one thing, and only one. *)
Theorem C63_meanings : (forall bs, Forall (fun b => b < 256)%N bs -> (12 <= length bs)%nat ->
    (forall p l t pb m data, bs = t ++ pb ++ m ++ data -> word 3 t -> word p pb -> word l m -> (l <= N.of_nat (length data) /\ l < 2 ^ 31)%N) ->
    exists m, encodes m bs) /\
  (forall m m' bs, encodes m bs -> encodes m' bs -> m = m').
Proof.
  split.
  - intros bs B L H. do 12 (destruct bs as [|? bs]; [cbn in L; lia|]).
    repeat match goal with F : Forall _ (_ :: _) |- _ => inversion F; clear F; subst end.
    change (exists m, encodes m ([n; n0; n1; n2] ++ [n3; n4; n5; n6] ++ [n7; n8; n9; n10] ++ bs)).
    assert (W1 := word_of_bytes n n0 n1 n2). assert (W2 := word_of_bytes n3 n4 n5 n6). assert (W3 := word_of_bytes n7 n8 n9 n10).
    match type of W1 with _ -> _ -> _ -> _ -> word ?x _ => set (ty := x) in * end. match type of W2 with _ -> _ -> _ -> _ -> word ?x _ => set (p := x) in * end. match type of W3 with _ -> _ -> _ -> _ -> word ?x _ => set (mo := x) in * end.
    clearbody ty p mo. assert (W1' : word ty [n; n0; n1; n2]) by auto. assert (W2' : word p [n3; n4; n5; n6]) by auto. assert (W3' : word mo [n7; n8; n9; n10]) by auto. clear W1 W2 W3.
    destruct (N.eq_dec ty 0) as [->|]; [eexists; eapply EAdd; eauto|]. destruct (N.eq_dec ty 1) as [->|]; [eexists; eapply ERemove; eauto|].
    destruct (N.eq_dec ty 2) as [->|].
    { destruct (N.eq_dec mo 0) as [->|]; [exists (MStatus p false); apply EStatus; auto|]. destruct (N.eq_dec mo 1) as [->|]; [exists (MStatus p true); apply EStatus; auto|]. exists MIgnored. eapply EBadStatus; eauto. lia. }
    destruct (N.eq_dec ty 3) as [->|].
    { specialize (H p mo [n; n0; n1; n2] [n3; n4; n5; n6] [n7; n8; n9; n10] bs eq_refl W1' W2' W3'). exists (MPacket p (firstn (N.to_nat mo) bs)).
      assert (LF : N.of_nat (length (firstn (N.to_nat mo) bs)) = mo) by (rewrite firstn_length; lia).
      replace bs with (firstn (N.to_nat mo) bs ++ skipn (N.to_nat mo) bs) at 2 by apply firstn_skipn. apply EPacket; auto; rewrite LF; auto. apply H. }
    destruct (N.eq_dec ty 5) as [->|]; [eexists; eapply EQuery; eauto|]. exists MIgnored. eapply EUnknown; eauto. lia.
  - intros m m' bs E E'.
    assert (U : forall x y w w' (r r' : list N), word x w -> word y w' -> w ++ r = w' ++ r' -> x = y /\ r = r').
    { intros x y w w' r r' W W' EQ. assert (A := rd32_word x w r W). assert (B := rd32_word y w' r' W'). rewrite EQ, B in A. split; [congruence|].
      assert (LW := word_len _ _ W). assert (LW' := word_len _ _ W'). assert (C := f_equal (skipn 4) EQ). rewrite !skipn_app, LW, LW', (skipn_all2 w), (skipn_all2 w') in C by lia. exact C. }
    inversion E; subst; inversion E'; subst;
      repeat match goal with
      | EQ : ?w' ++ ?r' = ?w ++ ?r, W' : word ?y ?w', W : word ?x ?w |- _ => destruct (U y x w' w r' r W' W EQ) as [? ?]; clear EQ; subst
      end; try reflexivity; try discriminate; try lia; try congruence.
    + repeat match goal with up : bool |- _ => destruct up end; congruence.
    + destruct up; lia.
    + f_equal. match goal with EQ : ?a ++ ?b = ?c ++ ?d |- _ => assert (LL : length a = length c) by lia; assert (X := f_equal (firstn (length a)) EQ); rewrite LL in X at 2; rewrite !firstn_app, !Nat.sub_diag, !firstn_all, !firstn_O, !app_nil_r in X; auto end.
    + destruct up; lia.
Qed.
Print Assumptions C63_meanings.

(** A message shorter than its header is read beyond its end. *)
Theorem C63_short_refuted : ~ (forall enf h bs, Forall (fun b => b < 256)%N bs -> dm_run enf h dm_new [DRecv bs] <> None).
Proof. intros H. apply (H false true [3%N; 0%N]); [repeat constructor|reflexivity]. Qed.
Print Assumptions C63_short_refuted.
(** The length a PACKET_IN message announces is not checked against the bytes received: the packet is read beyond the end of the message. *)
Theorem C63_length_refuted : ~ (forall enf h bs, Forall (fun b => b < 256)%N bs -> (12 <= length bs)%nat -> dm_run enf h dm_new [DRecv bs] <> None).
Proof. intros H. apply (H false true [3; 0; 0; 0;  1; 0; 0; 0;  9; 0; 0; 0;  170]%N); [repeat constructor|cbn; lia|reflexivity]. Qed.
Print Assumptions C63_length_refuted.

Definition add_msg (p : N) : list N := [0; 0; 0; 0;  p; 0; 0; 0;  0; 0; 0; 0]%N.
Lemma add_msg_ok p : (p < 256)%N -> encodes (MAdd p) (add_msg p).
Proof. intros H. apply (EAdd p [0; 0; 0; 0]%N [p; 0; 0; 0]%N [0; 0; 0; 0]%N []); [exists 0%N, 0%N, 0%N, 0%N|exists p, 0%N, 0%N, 0%N|]; repeat split; auto; lia. Qed.

(** A call of port_remove fails with UNSUPPORTED and yet tells the callbacks that the port is gone, while its packets are still handled. *)
Theorem C63_failed_call_refuted : ~ (forall h sas acts d os, Forall2 same sas acts -> Forall small_action sas ->
  dm_run true h dm_new acts = Some (d, os) -> exists rest, cbs os ++ rest = events true (received sas)).
Proof.
  intros H. destruct (H true [SRecv (MAdd 3); SOther DNotify; SOther DNotify; SOther (DRemove 3)] [DRecv (add_msg 3); DNotify; DNotify; DRemove 3]
    (mkDM [(3%N, true)] [] []) [[]; [OCb 3 Added]; [OCb 3 Up]; [OCb 3 Removed; OUnsupported]]) as (rest & E).
  - constructor; [constructor; apply add_msg_ok; lia|]. repeat constructor; discriminate.
  - repeat constructor.
  - reflexivity.
  - vm_compute in E. discriminate.
Qed.
Print Assumptions C63_failed_call_refuted.
(** Without enforce_ports, port_is_up answers true for ports that get_port_info does not list, and for those it lists as down. *)
Theorem C63_is_up_refuted : ~ (forall enf h acts p b l d os, dm_run enf h dm_new (acts ++ [DIsUp p; DInfo]) = Some (d, os ++ [[OUp b]; [OInfo l]]) -> (b = true <-> In (p, true) l)).
Proof. intros H. destruct (H false true [] 3%N true [] dm_new [] eq_refl) as [A _]. destruct (A eq_refl). Qed.
Print Assumptions C63_is_up_refuted.

Definition packet_msg (p : N) (a b : N) : list N := [3; 0; 0; 0;  p; 0; 0; 0;  2; 0; 0; 0;  a; b]%N.
Lemma packet_msg_ok p a b : (p < 256)%N -> encodes (MPacket p [a; b]) (packet_msg p a b).
Proof. intros H. apply (EPacket p [a; b] [3; 0; 0; 0]%N [p; 0; 0; 0]%N [2; 0; 0; 0]%N []); [exists 3%N, 0%N, 0%N, 0%N|exists p, 0%N, 0%N, 0%N|exists 2%N, 0%N, 0%N, 0%N|reflexivity]; repeat split; auto; lia. Qed.
(** the peer's view of a short life of port 3 *)
Example C63_ex_hyps : Forall2 same
  [SRecv (MPacket 3 [7; 8]%N); SRecv (MAdd 3); SOther (DIsUp 3); SOther DNotify; SOther DNotify; SRecv (MPacket 3 [7; 8]%N); SOther DInfo; SOther (DTransmit 3 [9]%N)]
  [DRecv (packet_msg 3 7 8); DRecv (add_msg 3); DIsUp 3; DNotify; DNotify; DRecv (packet_msg 3 7 8); DInfo; DTransmit 3 [9]%N] /\
  Forall no_api [SRecv (MPacket 3 [7; 8]%N); SRecv (MAdd 3); SOther (DIsUp 3); SOther DNotify; SOther DNotify; SRecv (MPacket 3 [7; 8]%N); SOther DInfo; SOther (DTransmit 3 [9]%N)] /\
  dm_run true true dm_new [DRecv (packet_msg 3 7 8); DRecv (add_msg 3); DIsUp 3; DNotify; DNotify; DRecv (packet_msg 3 7 8); DInfo; DTransmit 3 [9]%N] =
    Some (mkDM [(3%N, true)] [(3%N, true)] [], [[]; []; [OUp true]; [OCb 3 Added]; [OCb 3 Up]; [OPkt 3 [7; 8]%N]; [OInfo [(3%N, true)]]; [OMsg [4; 0; 0; 0;  3; 0; 0; 0;  1; 0; 0; 0;  9]%N]]).
Proof.
  split; [|split; [repeat constructor|vm_compute; reflexivity]].
  repeat (constructor; [try (constructor; discriminate); constructor; try apply add_msg_ok; try apply packet_msg_ok; lia|]). constructor.
Qed.
Example C63_ex_events : events true [MAdd 3; MStatus 3 true; MStatus 3 false; MStatus 4 true; MAdd 3; MRemove 3; MRemove 3] = [(3%N, Added); (3%N, Up); (3%N, Down); (3%N, Removed)].
Proof. reflexivity. Qed.
