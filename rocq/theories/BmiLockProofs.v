(** Proofs for C65. *)
From Coq Require Import List Arith NArith Bool Lia.
From Verif Require Import BmiLockModel BmiLockSpec.
Import ListNotations.

Lemma list_snoc {A} (l : list A) : l = [] \/ exists m y, l = m ++ [y].
Proof. destruct (rev l) as [|y m] eqn:E; [left|right]; rewrite <- (rev_involutive l), E; [auto|]. exists (rev m), y. auto. Qed.
Lemma snoc_split {A} (log : list A) e l1 x l2 : log ++ [e] = l1 ++ x :: l2 -> (l2 = [] /\ x = e /\ l1 = log) \/ (exists l2', l2 = l2' ++ [e] /\ log = l1 ++ x :: l2').
Proof.
  destruct (list_snoc l2) as [->|(m & y & ->)]; intros H.
  - left. apply app_inj_tail in H as [-> ->]. auto.
  - right. exists m. change (x :: m ++ [y]) with ((x :: m) ++ [y]) in H. rewrite app_assoc in H. apply app_inj_tail in H as [-> ->]. auto.
Qed.
Lemma memb_in l x : memb l x = true <-> In x l.
Proof. unfold memb. rewrite existsb_exists. split; [intros (y & IN & E); apply N.eqb_eq in E; subst; auto|]. intros IN. exists x. split; auto. apply N.eqb_refl. Qed.
Lemma memb_out l x : memb l x = false <-> ~ In x l.
Proof. rewrite <- memb_in. destruct (memb l x); split; congruence. Qed.
Lemma there_snoc log e p b : there (log ++ [e]) p b = match e with EAdded q _ => if (q =? p)%N then true else there log p b | ERemoved q => if (q =? p)%N then false else there log p b | _ => there log p b end.
Proof. revert b. induction log as [|x log IH]; intros b; cbn; [destruct e; auto|]. destruct x; rewrite IH; reflexivity. Qed.
Lemma fd_of_in l p fd : In (p, fd) l -> fd_of l p <> None.
Proof. induction l as [|[q f] l IH]; cbn; [tauto|]. intros [E|IN]; [injection E as -> ->; rewrite N.eqb_refl; discriminate|]. destruct (q =? p)%N; [discriminate|auto]. Qed.
Lemma fd_of_filter l p q : fd_of (filter (fun x => negb (fst x =? p)%N) l) q = if (p =? q)%N then None else fd_of l q.
Proof. induction l as [|[r f] l IH]; cbn; [destruct (p =? q)%N; auto|]. destruct (N.eqb_spec r p) as [E|E]; cbn; rewrite IH; destruct (N.eqb_spec p q), (N.eqb_spec r q); auto; congruence. Qed.
Lemma fd_of_snoc l p fd q : fd_of (l ++ [(p, fd)]) q = match fd_of l q with Some x => Some x | None => if (p =? q)%N then Some fd else None end.
Proof. induction l as [|[r f] l IH]; cbn; auto. destruct (r =? q)%N; auto. Qed.

(** ** the log *)
(** What has to hold for an event to be added, [pc] being the receiving thread's state before. *)
Definition in_handler (pc : tpc) (p : N) : Prop := exists todo ready, pc = TDeliver p todo ready.
Definition last_ready (log : list levent) (ready : list N) : Prop := exists l0 r0 l0', log = l0 ++ ESelected r0 :: l0' /\ incl ready r0 /\ forall r, ~ In (ESelected r) l0'.
Record LOG (log : list levent) (pc : tpc) : Prop := mkLOG {
  g_well : handled_well log;
  g_closed : closed_well log;
  g_open : forall l1 l2 p fd, log = l1 ++ EBegin p fd :: l2 -> In (EEnd p) l2 \/ in_handler pc p;
  g_sel : forall l1 l2 fds, log = l1 ++ ESelect fds :: l2 -> (exists r, In (ESelected r) l2) \/ exists mx, pc = TSelect fds mx;
  g_ready : match pc with TReady r | TEcho r | TWant r | THold _ r | TDeliver _ _ r => last_ready log r | _ => True end }.

Lemma last_ready_snoc log r e : (forall x, e <> ESelected x) -> last_ready log r -> last_ready (log ++ [e]) r.
Proof.
  intros NE (l0 & r0 & l0' & -> & I & N). exists l0, r0, (l0' ++ [e]). split; [rewrite <- app_assoc; auto|]. split; auto. intros x IN. apply in_app_or in IN as [IN|[IN|[]]]; [apply (N x IN)|]. apply (NE x). auto.
Qed.
Lemma last_ready_incl log r r' : incl r' r -> last_ready log r -> last_ready log r'.
Proof. intros I (l0 & r0 & l0' & E & I0 & N). exists l0, r0, l0'. split; auto. split; auto. eapply incl_tran; eauto. Qed.

Lemma log_add log pc e pc' : LOG log pc ->
  match e with
  | EBegin p fd => there log p false = true /\ (exists r, last_ready log r /\ In fd r) /\ in_handler pc' p /\ (forall q, ~ in_handler pc q)
  | EEnd p => forall q, in_handler pc q -> q = p
  | EAdded _ _ | ERemoved _ => (forall q, ~ in_handler pc q) /\ pc' = pc
  | EClosed fd => (forall q, ~ in_handler pc q) /\ (forall fds mx, pc = TSelect fds mx -> ~ In fd fds) /\ pc' = pc
  | ESelect fds => (forall q, ~ in_handler pc q) /\ (forall fds mx, pc <> TSelect fds mx) /\ exists mx, pc' = TSelect fds mx
  | ESelected r => (forall q, ~ in_handler pc q) /\ pc' = TReady r
  | EReturned _ => pc' = pc
  end ->
  (match e with EBegin _ _ | EEnd _ => forall fds mx, pc <> TSelect fds mx | _ => True end) ->
  match pc' with TReady r | TEcho r | TWant r | THold _ r | TDeliver _ _ r => last_ready (log ++ [e]) r | _ => True end ->
  LOG (log ++ [e]) pc'.
Proof.
  intros [[W1 [W2 W3]] C O S R] H HS HR. constructor; auto.
  - split; [|split].
    + intros l1 l2 p fd E. apply snoc_split in E as [(-> & E & ->)|(l2' & -> & E)]; [|eauto]. subst e. apply H.
    + intros l1 l2 l3 p fd x E X. destruct (list_snoc l3) as [->|(m3 & y & ->)].
      * change (l1 ++ EBegin p fd :: l2 ++ [x]) with (l1 ++ (EBegin p fd :: l2) ++ [x]) in E. rewrite app_assoc in E. apply app_inj_tail in E as [E ->]. destruct (O _ _ _ _ E) as [IN|IH]; auto. exfalso.
        destruct X as (q & [->|[->|(z & ->)]]); destruct H as [H _]; apply (H p); auto.
      * replace (l1 ++ EBegin p fd :: l2 ++ x :: m3 ++ [y]) with ((l1 ++ EBegin p fd :: l2 ++ x :: m3) ++ [y]) in E by (rewrite <- app_assoc; cbn; rewrite <- app_assoc; auto). apply app_inj_tail in E as [E _]. eauto.
    + intros l1 l2 p fd E. apply snoc_split in E as [(-> & E & ->)|(l2' & -> & E)]; [|eauto]. subst e. destruct H as (_ & (r & (l0 & r0 & l0' & E0 & I0 & N0) & IN) & _). exists l0, r0, l0'. auto.
  - intros l1 l2 l3 fds fd E IN. destruct (list_snoc l3) as [->|(m3 & y & ->)].
    + change (l1 ++ ESelect fds :: l2 ++ [EClosed fd]) with (l1 ++ (ESelect fds :: l2) ++ [EClosed fd]) in E. rewrite app_assoc in E. apply app_inj_tail in E as [E ->]. destruct (S _ _ _ E) as [X|(mx & X)]; auto. exfalso. destruct H as (_ & H & _). apply (H _ _ X IN).
    + replace (l1 ++ ESelect fds :: l2 ++ EClosed fd :: m3 ++ [y]) with ((l1 ++ ESelect fds :: l2 ++ EClosed fd :: m3) ++ [y]) in E by (rewrite <- app_assoc; cbn; rewrite <- app_assoc; auto). apply app_inj_tail in E as [E _]. eauto.
  - intros l1 l2 p fd E. apply snoc_split in E as [(-> & E & ->)|(l2' & -> & E)]; [subst e; right; apply H|]. destruct (O _ _ _ _ E) as [IN|IH]; [left; apply in_or_app; auto|].
    destruct e as [q f|q|f|q f|q|f|r|t].
    + destruct H as [H _]. exfalso. apply (H p). auto.
    + destruct H as [H _]. exfalso. apply (H p). auto.
    + destruct H as [H _]. exfalso. apply (H p). auto.
    + destruct H as (_ & _ & _ & H). exfalso. apply (H p). auto.
    + left. apply in_or_app. right. left. f_equal. symmetry. apply H. auto.
    + destruct H as [H _]. exfalso. apply (H p). auto.
    + destruct H as [H _]. exfalso. apply (H p). auto.
    + subst pc'. auto.
  - intros l1 l2 fds E. apply snoc_split in E as [(-> & E & ->)|(l2' & -> & E)]; [subst e; right; apply H|]. destruct (S _ _ _ E) as [(r & IN)|(mx & X)]; [left; exists r; apply in_or_app; auto|].
    destruct e as [q f|q|f|q f|q|f|r|t].
    + destruct H as [_ ->]. eauto.
    + destruct H as [_ ->]. eauto.
    + destruct H as (_ & _ & ->). eauto.
    + exfalso. apply (HS _ _ X).
    + exfalso. apply (HS _ _ X).
    + destruct H as (_ & H & _). exfalso. apply (H _ _ X).
    + left. exists r. apply in_or_app. right. left. auto.
    + subst pc'. eauto.
Qed.
(** a change of state without an event *)
Lemma log_move log pc pc' : LOG log pc -> (forall p, ~ in_handler pc p) -> (forall fds mx, pc <> TSelect fds mx) ->
  match pc' with TReady r | TEcho r | TWant r | THold _ r | TDeliver _ _ r => last_ready log r | _ => True end -> LOG log pc'.
Proof.
  intros [W C O S R] NH NS HR. constructor; auto.
  - intros l1 l2 p fd E. destruct (O _ _ _ _ E) as [|X]; auto. exfalso. apply (NH p). auto.
  - intros l1 l2 fds E. destruct (S _ _ _ E) as [|(mx & X)]; auto. exfalso. apply (NS _ _ X).
Qed.

(** ** the state *)
Definition writing (c : rpc) : Prop := match c with CWrite _ _ | CRead _ _ | CClose _ _ => True | _ => False end.
Definition holding (pc : tpc) : nat := match pc with THold _ _ | TDeliver _ _ _ => 1 | _ => 0 end.
Definition quiet (sock : N) (pc : tpc) : Prop := match pc with TEcho _ => False | TReady r => ~ In sock r | _ => True end.
Definition parked (pc : tpc) : Prop := match pc with TTop | TWant _ => True | _ => False end.
Definition phase (sock : N) (s : lst) (c : rpc) : Prop :=
  match c with
  | CWrite _ _ => l_to s = 0 /\ l_back s = 0 /\ quiet sock (l_sel s)
  | CRead _ _ => (l_to s = 1 /\ l_back s = 0 /\ match l_sel s with TEcho _ => False | _ => True end) \/
                 (l_to s = 0 /\ l_back s = 0 /\ match l_sel s with TEcho _ => True | _ => False end) \/
                 (l_to s = 0 /\ l_back s = 1 /\ parked (l_sel s))
  | CClose _ _ => l_to s = 0 /\ l_back s = 0 /\ parked (l_sel s)
  | _ => False
  end.
Record LI (sock : N) (s : lst) : Prop := mkLI {
  v_there : forall p, there (l_log s) p false = true <-> fd_of (l_ports s) p <> None;
  v_log : LOG (l_log s) (l_sel s);
  v_todo : match l_sel s with THold todo _ | TDeliver _ todo _ => incl todo (l_ports s) | _ => True end;
  v_readers : exists rs, NoDup rs /\ (forall t, In t rs <-> l_call s t = CReading) /\ l_readers s = length rs + holding (l_sel s);
  v_writer : match l_writer s with
             | None => (forall t, ~ writing (l_call s t)) /\ l_to s = 0 /\ l_back s = 0 /\ quiet sock (l_sel s)
             | Some t => l_readers s = 0 /\ phase sock s (l_call s t) /\ forall u, u <> t -> ~ writing (l_call s u)
             end }.

Lemma LI_new sock : LI sock (l_new sock).
Proof.
  constructor; cbn; auto.
  - intros p. split; [discriminate|congruence].
  - constructor; cbn; auto; [split; [|split]|..]; repeat intro; try (destruct l1; discriminate).
  - exists []. split; [constructor|]. split; auto. intros t. split; [contradiction|discriminate].
Qed.

Lemma upd_same {A} (f : nat -> A) t x : upd f t x t = x.
Proof. unfold upd. rewrite Nat.eqb_refl. auto. Qed.
Lemma upd_other {A} (f : nat -> A) t x u : u <> t -> upd f t x u = f u.
Proof. intros H. unfold upd. apply Nat.eqb_neq in H. rewrite H. auto. Qed.

(** readers under an update that does not touch reading *)
Lemma readers_same f t c (rs : list nat) : f t <> CReading -> c <> CReading -> (forall u, In u rs <-> f u = CReading) -> forall u, In u rs <-> upd f t c u = CReading.
Proof. intros A B H u. rewrite H. destruct (Nat.eq_dec u t) as [->|N]; [rewrite upd_same; tauto|rewrite upd_other by auto; tauto]. Qed.
Lemma no_writing_upd f t c : (forall u, ~ writing (f u)) -> ~ writing c -> forall u, ~ writing (upd f t c u).
Proof. intros H C u. destruct (Nat.eq_dec u t) as [->|N]; [rewrite upd_same; auto|rewrite upd_other by auto; auto]. Qed.
Lemma not_holding sock s : LI sock s -> l_readers s = 0 -> holding (l_sel s) = 0 /\ (forall p, ~ in_handler (l_sel s) p) /\ forall t, l_call s t <> CReading.
Proof.
  intros I Z0. destruct (v_readers _ _ I) as (rs & ND & RS & E). rewrite Z0 in E. destruct rs; [|cbn in E; lia]. split; [cbn in E; lia|]. split.
  - intros p (todo & r & X). rewrite X in E. cbn in E. lia.
  - intros t X. apply RS in X. destruct X.
Qed.
Lemma ready_of_log sock s : LI sock s -> match l_sel s with TReady r | TEcho r | TWant r | THold _ r | TDeliver _ _ r => last_ready (l_log s) r | _ => True end.
Proof. intros I. apply (g_ready _ _ (v_log _ _ I)). Qed.
Lemma ready_snoc sock s e : LI sock s -> (forall x, e <> ESelected x) -> match l_sel s with TReady r | TEcho r | TWant r | THold _ r | TDeliver _ _ r => last_ready (l_log s ++ [e]) r | _ => True end.
Proof. intros I N. assert (R := ready_of_log _ _ I). destruct (l_sel s); auto; apply last_ready_snoc; auto. Qed.
Lemma log_returned log pc t : LOG log pc -> LOG (log ++ [EReturned t]) pc.
Proof.
  intros G. apply (log_add _ _ (EReturned t) _ G); auto. assert (R := g_ready _ _ G). destruct pc; auto; apply last_ready_snoc; auto; discriminate.
Qed.

Lemma l_step_ok sock s a s' : LI sock s -> l_step sock s a = Some s' -> LI sock s'.
Proof.
  intros I ST. assert (I0 := I). destruct I as [VT VL VD (rs & ND & RS & RC) VW]. destruct a as [t c|t| |ready|]; cbn [l_step] in ST.
  - (* a call *) destruct (l_call s t) eqn:CT; try discriminate. injection ST as <-.
    assert (NR : forall c', match c with KRemove p => CWantRemove p | KAdd p fd => CWantAdd p fd | KRead => CWantRead end = c' -> c' <> CReading /\ ~ writing c') by (intros c' <-; destruct c; split; (discriminate || (cbn; tauto))).
    destruct (NR _ eq_refl) as [N1 N2]. constructor; cbn; auto.
    + exists rs. split; auto. split; auto. apply readers_same; auto. congruence.
    + destruct (l_writer s) as [w|].
      * destruct VW as (A & B & C). split; auto. assert (w <> t) by (intros ->; rewrite CT in B; exact B). rewrite upd_other by auto. split; auto. intros u U. destruct (Nat.eq_dec u t) as [->|]; [rewrite upd_same; auto|rewrite upd_other by auto; auto].
      * destruct VW as (A & B). split; auto. apply no_writing_upd; auto.
  - (* a calling thread *) destruct (l_call s t) as [|p|p fd|p fd|p fd|p fd| |] eqn:CT; try discriminate.
    + (* lock for remove *) unfold lock_free in ST. destruct (l_writer s) eqn:W; [discriminate|]. destruct (l_readers s =? 0) eqn:RZ; [|discriminate]. apply Nat.eqb_eq in RZ. destruct VW as (A & B & C & D).
      destruct (fd_of (l_ports s) p) as [fd|] eqn:FD; injection ST as <-; constructor; cbn; auto.
      * exists rs. split; auto. split; [apply readers_same; auto; congruence|lia].
      * split; auto. split; [rewrite upd_same; cbn; auto|]. intros u U. rewrite upd_other by auto. auto.
      * intros q. rewrite there_snoc. auto.
      * apply log_returned. auto.
      * exists rs. split; auto. split; [apply readers_same; auto; congruence|lia].
      * split; auto. apply no_writing_upd; auto.
    + (* write *) injection ST as <-. destruct (l_writer s) as [w|] eqn:W; [|exfalso; destruct VW as (A & _); apply (A t); rewrite CT; exact Logic.I]. destruct VW as (A & B & C).
      assert (w = t) by (destruct (Nat.eq_dec w t); auto; exfalso; apply (C t); [auto|rewrite CT; exact Logic.I]). subst w. rewrite CT in B. destruct B as (B1 & B2 & B3). constructor; cbn; auto.
      * exists rs. split; auto. split; auto. apply readers_same; auto; congruence.
      * split; auto. split; [rewrite upd_same; cbn; left; split; [lia|]; split; auto; destruct (l_sel s); auto|]. intros u U. rewrite upd_other by auto. auto.
    + (* read *) destruct (l_back s) as [|k] eqn:BK; [discriminate|]. injection ST as <-. destruct (l_writer s) as [w|] eqn:W; [|exfalso; destruct VW as (A & _); apply (A t); rewrite CT; exact Logic.I]. destruct VW as (A & B & C).
      assert (w = t) by (destruct (Nat.eq_dec w t); auto; exfalso; apply (C t); [auto|rewrite CT; exact Logic.I]). subst w. rewrite CT in B. cbn in B. constructor; cbn; auto.
      * exists rs. split; auto. split; auto. apply readers_same; auto; congruence.
      * split; auto. split; [rewrite upd_same; cbn; destruct B as [B|[B|B]]; destruct B as (B1 & B2 & B3); try lia; repeat split; auto; lia|]. intros u U. rewrite upd_other by auto. auto.
    + (* close *) injection ST as <-. destruct (l_writer s) as [w|] eqn:W; [|exfalso; destruct VW as (A & _); apply (A t); rewrite CT; exact Logic.I]. destruct VW as (A & B & C).
      assert (w = t) by (destruct (Nat.eq_dec w t); auto; exfalso; apply (C t); [auto|rewrite CT; exact Logic.I]). subst w. rewrite CT in B. destruct B as (B1 & B2 & B3). destruct (not_holding _ _ I0 A) as (H1 & H2 & H3). constructor; cbn [l_ports l_fds l_maxfd l_writer l_readers l_to l_back l_sel l_call l_log].
      * intros q. replace (l_log s ++ [EClosed fd; ERemoved p; EReturned t]) with (((l_log s ++ [EClosed fd]) ++ [ERemoved p]) ++ [EReturned t]) by (rewrite <- !app_assoc; auto). rewrite !there_snoc, fd_of_filter. destruct (N.eqb_spec p q); [split; [discriminate|congruence]|auto].
      * replace (l_log s ++ [EClosed fd; ERemoved p; EReturned t]) with (((l_log s ++ [EClosed fd]) ++ [ERemoved p]) ++ [EReturned t]) by (rewrite <- !app_assoc; auto). apply log_returned.
        assert (G1 : LOG (l_log s ++ [EClosed fd]) (l_sel s)).
        { apply (log_add _ _ (EClosed fd) _ VL); auto; [|apply (ready_snoc _ _ _ I0); discriminate]. split; auto. split; auto. intros fds mx X. rewrite X in B3. destruct B3. }
        apply (log_add _ _ (ERemoved p) _ G1); auto. assert (R := g_ready _ _ G1). destruct (l_sel s); auto; apply last_ready_snoc; auto; discriminate.
      * destruct (l_sel s); auto; destruct B3.
      * exists rs. split; auto. split; auto. apply readers_same; auto; congruence.
      * split; [intros u; destruct (Nat.eq_dec u t) as [->|]; [rewrite upd_same; cbn; auto|rewrite upd_other by auto; auto]|]. split; auto. split; auto. destruct (l_sel s); cbn in *; auto; contradiction.
    + (* add *) unfold lock_free in ST. destruct (l_writer s) eqn:W; [discriminate|]. destruct (l_readers s =? 0) eqn:RZ; [|discriminate]. apply Nat.eqb_eq in RZ. destruct VW as (A & B & C & D). destruct (not_holding _ _ I0 RZ) as (H1 & H2 & H3).
      destruct (fd_of (l_ports s) p) as [fd'|] eqn:FD; injection ST as <-; constructor; cbn [l_ports l_fds l_maxfd l_writer l_readers l_to l_back l_sel l_call l_log]; auto.
      * intros q. rewrite there_snoc. auto.
      * apply log_returned. auto.
      * exists rs. split; auto. split; [apply readers_same; auto; congruence|lia].
      * split; auto. apply no_writing_upd; auto.
      * intros q. replace (l_log s ++ [EAdded p fd; EReturned t]) with ((l_log s ++ [EAdded p fd]) ++ [EReturned t]) by (rewrite <- !app_assoc; auto). rewrite !there_snoc, fd_of_snoc. destruct (N.eqb_spec p q) as [<-|]; [rewrite FD; split; [discriminate|auto]|]. rewrite VT. destruct (fd_of (l_ports s) q); tauto.
      * replace (l_log s ++ [EAdded p fd; EReturned t]) with ((l_log s ++ [EAdded p fd]) ++ [EReturned t]) by (rewrite <- !app_assoc; auto). apply log_returned. apply (log_add _ _ (EAdded p fd) _ VL); auto. apply (ready_snoc _ _ _ I0). discriminate.
      * destruct (l_sel s); auto; cbn in H1; discriminate.
      * exists rs. split; auto. split; [apply readers_same; auto; congruence|lia].
      * split; auto. apply no_writing_upd; auto.
    + (* lock for reading *) unfold read_free in ST. destruct (l_writer s) eqn:W; [discriminate|]. injection ST as <-. destruct VW as (A & B). constructor; cbn; auto.
      * exists (t :: rs). split; [constructor; auto; rewrite RS, CT; discriminate|]. split; [|cbn; lia]. intros u. cbn [In]. rewrite RS. destruct (Nat.eq_dec u t) as [->|N]; [rewrite upd_same; tauto|rewrite upd_other by auto; intuition congruence].
      * split; auto. apply no_writing_upd; auto.
    + (* done reading *) injection ST as <-. assert (IT : In t rs) by (apply RS; auto). destruct (in_split _ _ IT) as (r1 & r2 & E). assert (ND2 := ND). rewrite E in ND2. apply NoDup_remove in ND2 as [ND2 NI].
      assert (RL : length rs = S (length (r1 ++ r2))) by (rewrite E, !app_length; cbn; lia).
      constructor; cbn; auto.
      * intros q. rewrite there_snoc. auto.
      * apply log_returned. auto.
      * exists (r1 ++ r2). split; auto. split; [|lia]. intros u. destruct (Nat.eq_dec u t) as [->|N]; [rewrite upd_same; split; [contradiction|discriminate]|]. rewrite upd_other by auto. rewrite <- RS, E, !in_app_iff. cbn. intuition congruence.
      * destruct (l_writer s); [lia|]. destruct VW as (A & B). split; auto. apply no_writing_upd; auto.
  - (* start *) destruct (l_sel s) eqn:SE; try discriminate. injection ST as <-. constructor; cbn; rewrite ?app_nil_r; auto.
    + eapply log_move; [exact VL| | |exact Logic.I]; [intros p (x & y & X); discriminate|discriminate].
    + exists rs. auto.
    + destruct (l_writer s) as [w|]; auto. destruct VW as (A & B & C). split; auto. split; auto. unfold phase in *. cbn. rewrite SE in B. destruct (l_call s w); cbn in *; auto; tauto.
  - (* select returns *) destruct (l_sel s) as [| |fds mx| | | | |] eqn:SE; try discriminate. destruct (forallb _ ready && Bool.eqb _ _) eqn:CK; [|discriminate]. injection ST as <-. apply andb_true_iff in CK as [CK1 CK2]. apply Bool.eqb_prop in CK2.
    constructor; cbn; auto.
    + intros q. rewrite there_snoc. auto.
    + apply (log_add _ _ (ESelected ready) _ VL); auto; [split; auto; intros q (x & y & X); discriminate|]. exists (l_log s), ready, []. split; auto. split; [apply incl_refl|auto].
    + exists rs. auto.
    + destruct (l_writer s) as [w|].
      * destruct VW as (A & B & C). split; auto. split; auto. unfold phase in *. cbn. rewrite SE in B. destruct (l_call s w); cbn in *; auto; try tauto. destruct B as (B1 & B2 & B3). repeat split; auto. intros IN. apply memb_in in IN. rewrite IN, B1 in CK2. cbn in CK2. rewrite andb_false_r in CK2. discriminate.
      * destruct VW as (A & B & C & D). repeat split; auto. intros IN. apply memb_in in IN. rewrite IN, B in CK2. cbn in CK2. rewrite andb_false_r in CK2. discriminate.
  - (* the receiving thread *) destruct (l_sel s) as [| |fds mx|ready|ready|ready|todo ready|p todo ready] eqn:SE; try discriminate.
    + (* copy *) unfold read_free in ST. destruct (l_writer s) eqn:W; [discriminate|]. injection ST as <-. constructor; cbn; rewrite ?W; auto.
      * intros q. rewrite there_snoc. auto.
      * apply (log_add _ _ (ESelect (l_fds s)) _ VL); auto. split; [intros q (x & y & X); discriminate|]. split; [discriminate|eauto].
      * exists rs. auto.
    + (* look at the socket *) destruct (memb ready sock) eqn:MB.
      * destruct (l_to s) as [|k] eqn:TO; [discriminate|]. injection ST as <-. constructor; cbn; auto.
        -- eapply log_move; [exact VL| | |]; [intros p (x & y & X); discriminate|discriminate|]. assert (R := ready_of_log _ _ I0). rewrite SE in R. eapply last_ready_incl; [|exact R]. intros x IN. unfold without in IN. apply filter_In in IN. tauto.
        -- exists rs. auto.
        -- destruct (l_writer s) as [w|]; [|lia]. destruct VW as (A & B & C). split; auto. split; auto. unfold phase in *. cbn. rewrite SE in B. destruct (l_call s w); cbn in *; auto; try (destruct B as (B1 & _); lia); destruct B as [B|[B|B]]; destruct B as (B1 & B2 & B3); lia.
      * injection ST as <-. constructor; cbn; rewrite ?app_nil_r; auto.
        -- eapply log_move; [exact VL| | |]; [intros p (x & y & X); discriminate|discriminate|]. assert (R := ready_of_log _ _ I0). rewrite SE in R. destruct ready; cbn; auto.
        -- destruct ready; cbn; auto.
        -- exists rs. split; auto. split; auto. destruct ready; cbn in *; auto.
        -- destruct (l_writer s) as [w|].
           ++ destruct VW as (A & B & C). split; auto. split; auto. unfold phase in *. cbn. rewrite SE in B. destruct (l_call s w); cbn in *; auto; destruct ready; cbn; tauto.
           ++ destruct VW as (A & B & C & D). repeat split; auto. destruct ready; cbn; auto.
    + (* answer *) injection ST as <-. constructor; cbn; auto.
      * eapply log_move; [exact VL| | |]; [intros p (x & y & X); discriminate|discriminate|]. assert (R := ready_of_log _ _ I0). rewrite SE in R. destruct ready; cbn; auto.
      * destruct ready; cbn; auto.
      * exists rs. split; auto. split; auto. destruct ready; cbn in *; auto.
      * destruct (l_writer s) as [w|]; [|cbn in VW; tauto]. destruct VW as (A & B & C). split; auto. split; auto. unfold phase in *. cbn. rewrite SE in B. destruct (l_call s w); cbn in *; auto; try tauto. destruct B as [B|[B|B]]; destruct B as (B1 & B2 & B3); try contradiction. right. right. repeat split; auto; try lia. destruct ready; cbn; auto.
    + (* lock to receive *) unfold read_free in ST. destruct (l_writer s) eqn:W; [discriminate|]. injection ST as <-. constructor; cbn; auto.
      * eapply log_move; [exact VL| | |]; [intros p (x & y & X); discriminate|discriminate|]. assert (R := ready_of_log _ _ I0). rewrite SE in R. exact R.
      * apply incl_refl.
      * exists rs. split; auto. split; auto. cbn in *. lia.
    + (* the ports *) assert (WN : l_writer s = None) by (destruct (l_writer s); auto; destruct VW as [A _]; cbn in RC; lia). assert (R := ready_of_log _ _ I0). rewrite SE in R. rewrite WN in VW. destruct VW as (A & B & C & D). destruct todo as [|[p fd] todo].
      * injection ST as <-. constructor; cbn; rewrite ?WN; auto.
        -- eapply log_move; [exact VL| | |]; [intros p (x & y & X); discriminate|discriminate|exact Logic.I].
        -- exists rs. split; auto. split; auto. cbn in *. lia.
      * destruct (memb ready fd) eqn:MB; injection ST as <-; constructor; cbn; rewrite ?WN, ?app_nil_r; auto.
        -- intros q. rewrite there_snoc. auto.
        -- apply (log_add _ _ (EBegin p fd) _ VL); auto; [|discriminate|apply last_ready_snoc; auto; discriminate]. split; [apply VT; eapply fd_of_in; apply VD; left; auto|]. split; [exists ready; split; auto; apply memb_in; auto|]. split; [do 2 eexists; auto|]. intros q (x & y & X). discriminate.
        -- intros x IN. apply VD. right. auto.
        -- exists rs. auto.
        -- eapply log_move; [exact VL| | |]; [intros q (x & y & X); discriminate|discriminate|exact R].
        -- intros x IN. apply VD. right. auto.
        -- exists rs. auto.
    + (* the handler returns *) assert (WN : l_writer s = None) by (destruct (l_writer s); auto; destruct VW as [A _]; cbn in RC; lia). assert (R := ready_of_log _ _ I0). rewrite SE in R. rewrite WN in VW. destruct VW as (A & B & C & D).
      injection ST as <-. constructor; cbn; rewrite ?WN; auto.
      * intros q. rewrite there_snoc. auto.
      * apply (log_add _ _ (EEnd p) _ VL); auto; [|discriminate|apply last_ready_snoc; auto; discriminate]. intros q (x & y & X). congruence.
      * exists rs. auto.
Qed.
Lemma l_run_ok sock : forall acts s s', LI sock s -> l_run sock s acts = Some s' -> LI sock s'.
Proof. induction acts as [|a acts IH]; intros s s' I R; cbn in R; [injection R as <-; auto|]. destruct (l_step sock s a) eqn:ST; [|discriminate]. eapply IH; [|exact R]. eapply l_step_ok; eauto. Qed.

(** ** a remove that waits for ever *)
Definition reached (sock : N) (s : lst) : Prop := exists acts, l_run sock (l_new sock) acts = Some s.
Lemma reached_LI sock s : reached sock s -> LI sock s.
Proof. intros (acts & R). eapply l_run_ok; [apply LI_new|exact R]. Qed.
Lemma waits_writer sock s t : LI sock s -> waits s t -> l_writer s = Some t.
Proof.
  intros I (p & fd & CT). assert (VW := v_writer _ _ I). destruct (l_writer s) as [w|]; [|exfalso; destruct VW as [A _]; apply (A t); rewrite CT; exact Logic.I].
  destruct VW as (_ & _ & C). destruct (Nat.eq_dec w t) as [->|]; auto. exfalso. apply (C t); auto. rewrite CT. exact Logic.I.
Qed.
Lemma deaf_step sock s a s' t : LI sock s -> waits s t -> ~ attentive sock s -> l_step sock s a = Some s' ->
  waits s' t /\ ~ attentive sock s' /\ exists new, l_log s' = l_log s ++ new /\ forall u, ~ In (EReturned u) new.
Proof.
  intros I (p & fd & CT) NA ST. assert (W := waits_writer _ _ _ I (ex_intro _ p (ex_intro _ fd CT))). assert (VW := v_writer _ _ I). rewrite W in VW. destruct VW as (RZ & PH & OT). rewrite CT in PH. cbn in PH. destruct (not_holding _ _ I RZ) as (H1 & H2 & H3).
  assert (LN : forall l, l_log s = l -> exists new, l = l_log s ++ new /\ forall u, ~ In (EReturned u) new) by (intros l <-; exists []; rewrite app_nil_r; auto).
  destruct a as [u c|u| |ready|]; cbn [l_step] in ST.
  - destruct (l_call s u) eqn:CU; try discriminate. injection ST as <-. cbn. assert (t <> u) by congruence. split; [exists p, fd; cbn; rewrite upd_other; auto|]. split; auto.
  - unfold lock_free, read_free in ST. rewrite W in ST. destruct (Nat.eq_dec u t) as [->|N].
    + rewrite CT in ST. destruct (l_back s) eqn:BK; [discriminate|]. exfalso. apply NA. unfold attentive. destruct (l_sel s); cbn in PH; try lia; auto; destruct PH as [PH|[PH|PH]]; destruct PH as (P1 & P2 & P3); try lia; contradiction.
    + destruct (l_call s u) eqn:CU; try discriminate; exfalso; try (apply (OT u N); rewrite CU; exact Logic.I). apply (H3 u). auto.
  - destruct (l_sel s) eqn:SE; try discriminate. injection ST as <-. split; [exists p, fd; auto|]. split; [|cbn; rewrite app_nil_r; auto]. unfold attentive in *. cbn. rewrite SE in NA. auto.
  - destruct (l_sel s) as [| |fds mx| | | | |] eqn:SE; try discriminate. destruct (forallb _ ready && Bool.eqb _ _) eqn:CK; [|discriminate]. injection ST as <-. apply andb_true_iff in CK as [CK1 CK2]. split; [exists p, fd; auto|]. split.
    + unfold attentive in *. cbn. rewrite SE in NA. intros IN. apply NA. rewrite forallb_forall in CK1. apply CK1 in IN. apply andb_true_iff in IN as [A B]. apply memb_in in A. apply N.leb_le in B. auto.
    + cbn. exists [ESelected ready]. split; auto. intros u [X|[]]. discriminate.
  - unfold attentive in NA. destruct (l_sel s) as [| |fds mx|ready|ready|ready|todo ready|q todo ready] eqn:SE; try discriminate.
    + unfold read_free in ST. rewrite W in ST. discriminate.
    + destruct (memb ready sock) eqn:MB; [exfalso; apply NA; apply memb_in; auto|]. injection ST as <-. split; [exists p, fd; auto|]. split; [|cbn; rewrite app_nil_r; auto]. unfold attentive. cbn. destruct PH as [PH|[PH|PH]]; destruct PH as (P1 & P2 & P3); cbn in P3; try contradiction. destruct ready; cbn; lia.
    + exfalso. apply NA. exact Logic.I.
    + unfold read_free in ST. rewrite W in ST. discriminate.
Qed.
Lemma deaf_run sock t : forall acts s s', LI sock s -> waits s t -> ~ attentive sock s -> l_run sock s acts = Some s' ->
  waits s' t /\ exists new, l_log s' = l_log s ++ new /\ forall u, ~ In (EReturned u) new.
Proof.
  induction acts as [|a acts IH]; intros s s' I WT NA R; cbn in R; [injection R as <-; split; auto; exists []; rewrite app_nil_r; auto|].
  destruct (l_step sock s a) as [s1|] eqn:ST; [|discriminate]. destruct (deaf_step _ _ _ _ _ I WT NA ST) as (W1 & N1 & n1 & E1 & X1). destruct (IH _ _ (l_step_ok _ _ _ _ I ST) W1 N1 R) as (W2 & n2 & E2 & X2). split; auto. exists (n1 ++ n2). rewrite app_assoc, <- E1. split; auto.
  intros u IN. apply in_app_or in IN as [IN|IN]; [apply (X1 u IN)|apply (X2 u IN)].
Qed.

Lemma l_run_app sock : forall a b s, l_run sock s (a ++ b) = match l_run sock s a with Some s' => l_run sock s' b | None => None end.
Proof. induction a as [|x a IH]; intros b s; cbn; auto. destruct (l_step sock s x); auto. Qed.
Lemma can_prefix sock s a s1 t : l_step sock s a = Some s1 -> (exists n, l_log s1 = l_log s ++ n) -> can_return sock s1 t -> can_return sock s t.
Proof. intros ST (n & E) (acts & s' & new & R & L & IN). exists (a :: acts), s', (n ++ new). cbn. rewrite ST. split; auto. rewrite L, E, app_assoc. split; auto. apply in_or_app. auto. Qed.
Lemma answered sock s t p fd : l_call s t = CRead p fd -> l_back s <> 0 -> can_return sock s t.
Proof.
  intros CT BK. destruct (l_back s) as [|k] eqn:B; [congruence|]. eapply can_prefix with (a := LStep t); [cbn; rewrite CT, B; reflexivity|exists []; cbn; rewrite app_nil_r; auto|].
  eexists [LStep t], _, _. cbn. rewrite upd_same. split; [reflexivity|]. cbn. split; [reflexivity|]. cbn. auto.
Qed.
Lemma echo_answers sock s t p fd ready : l_call s t = CRead p fd -> l_sel s = TEcho ready -> can_return sock s t.
Proof.
  intros CT SE. eapply can_prefix with (a := LSel); [cbn; rewrite SE; reflexivity|exists []; cbn; rewrite app_nil_r; auto|]. eapply answered; [cbn; exact CT|cbn; lia].
Qed.
Lemma ready_answers sock s t p fd ready : l_call s t = CRead p fd -> l_sel s = TReady ready -> In sock ready -> l_to s <> 0 -> can_return sock s t.
Proof.
  intros CT SE IN TO. destruct (l_to s) as [|k] eqn:T; [congruence|]. apply memb_in in IN.
  eapply can_prefix with (a := LSel); [cbn; rewrite SE, IN, T; reflexivity|exists []; cbn; rewrite app_nil_r; auto|]. eapply echo_answers; [cbn; exact CT|cbn; reflexivity].
Qed.
Lemma attentive_returns sock s t : LI sock s -> waits s t -> attentive sock s -> can_return sock s t.
Proof.
  intros I WT AT. assert (W := waits_writer _ _ _ I WT). destruct WT as (p & fd & CT). assert (VW := v_writer _ _ I). rewrite W in VW. destruct VW as (RZ & PH & OT). rewrite CT in PH. cbn in PH. unfold attentive in AT. destruct (l_sel s) as [| |fds mx|ready|ready|ready|todo ready|q todo ready] eqn:SE; try (eapply answered; eauto; fail).
  - destruct AT as [A B]. assert (TO : l_to s = 1) by (destruct PH as [PH|[PH|PH]]; destruct PH as (P1 & P2 & P3); cbn in P3; auto; contradiction). assert (A' := A). apply memb_in in A'. assert (B' := B). apply N.leb_le in B'.
    eapply can_prefix with (a := LSelected [sock]).
    + cbn. rewrite SE, TO. cbn. rewrite A', B', N.eqb_refl. cbn. reflexivity.
    + cbn. eauto.
    + eapply ready_answers; [cbn; exact CT|cbn; reflexivity|left; reflexivity|cbn; lia].
  - eapply ready_answers; eauto. destruct PH as [PH|[PH|PH]]; destruct PH as (P1 & P2 & P3); cbn in P3; try contradiction; lia.
  - eapply echo_answers; eauto.
Qed.
