(** Proofs about the port monitor. *)
From Coq Require Import List Arith NArith Bool Lia Sorted.
From Verif Require Import PortMonModel PortMonSpec.
Import ListNotations.

(** ** Lists of events *)
Lemma of_port_app p a b : of_port p (a ++ b) = of_port p a ++ of_port p b.
Proof. unfold of_port. rewrite filter_app, map_app. reflexivity. Qed.
Lemma map_pair_snd {A B} (t : A) (l : list B) : map snd (map (pair t) l) = l.
Proof. rewrite map_map. apply map_id. Qed.
Definition lasto {A} (d : option A) (l : list A) : option A :=
  match rev l with [] => d | e :: _ => Some e end.
Lemma last_evt_app p h t l : last_evt p (h ++ map (pair t) l) = lasto (last_evt p h) (of_port p l).
Proof.
  unfold last_evt, lasto. rewrite map_app, map_pair_snd, of_port_app, rev_app_distr.
  destruct (rev (of_port p l)); reflexivity.
Qed.
Lemma by_thread_app {A} t (a b : list (nat * A)) : by_thread t (a ++ b) = by_thread t a ++ by_thread t b.
Proof. unfold by_thread. rewrite filter_app, map_app. reflexivity. Qed.
Lemma by_thread_same {A} t (l : list A) : by_thread t (map (pair t) l) = l.
Proof. unfold by_thread. induction l as [|x l IH]; cbn; [reflexivity|]. rewrite Nat.eqb_refl. cbn. rewrite IH. reflexivity. Qed.
Lemma by_thread_other {A} t u (l : list A) : u <> t -> by_thread t (map (pair u) l) = [].
Proof.
  intros N. unfold by_thread. induction l as [|x l IH]; cbn; [reflexivity|].
  destruct (Nat.eqb_spec u t); [contradiction|exact IH].
Qed.
Lemma reports_app a b : reports (a ++ b) = reports a ++ reports b.
Proof. unfold reports. apply flat_map_app. Qed.
Lemma reports_filter l : map (fun x => one_status (fst x) (snd x)) (filter (fun x => up_down (snd x)) l) = reports l.
Proof. induction l as [|[p e] l IH]; [reflexivity|]. destruct e; cbn in *; rewrite ?IH; reflexivity. Qed.

Lemma of_port_nil p l : ~ In p (map fst l) -> of_port p l = [].
Proof.
  intros H. unfold of_port. induction l as [|[q e] l IH]; [reflexivity|]. cbn in *.
  destruct (N.eqb_spec q p); [subst; tauto|]. apply IH. tauto.
Qed.
Lemma sorted_nodup l : StronglySorted (fun a b : N * pevt => (fst a < fst b)%N) l -> NoDup (map fst l).
Proof.
  induction 1 as [|a l H IH F]; cbn; constructor; auto. intros I. apply in_map_iff in I as (b & E & I).
  rewrite Forall_forall in F. specialize (F _ I). lia.
Qed.
Lemma of_port_one p e l : NoDup (map fst l) -> In (p, e) l -> of_port p l = [e].
Proof.
  induction l as [|[q x] l IH]; cbn; [tauto|]. intros Nd I. inversion Nd as [|? ? N1 N2]; subst. unfold of_port. cbn.
  destruct I as [I|I].
  - injection I as -> ->. rewrite N.eqb_refl. cbn. fold (of_port p l). rewrite of_port_nil; auto.
  - destruct (N.eqb_spec q p) as [->|D]. { destruct N1. change p with (fst (p, e)). now apply in_map. }
    apply IH; auto.
Qed.

Lemma protocol_snoc l : forall d e, protocol d (l ++ [e]) <-> protocol d l /\ may_follow (lasto d l) e.
Proof.
  induction l as [|x l IH]; intros d e; cbn [app protocol].
  - unfold lasto. cbn. tauto.
  - rewrite IH. unfold lasto. cbn [rev]. destruct (rev l) as [|y r] eqn:E; cbn; tauto.
Qed.
Lemma changes_protocol acts h : changes acts h -> forall p, protocol None (of_port p (map snd h)).
Proof.
  induction 1 as [|acts h t q e l H IH M|acts h t f l H IH M|acts h e cb H IH|acts h t H IH]; intros p; auto; [exact I|..].
  - rewrite map_app, map_pair_snd, of_port_app. destruct M as [[M ->]|[_ ->]].
    + unfold of_port at 2. cbn. destruct (N.eqb_spec q p) as [->|D]; cbn.
      * apply protocol_snoc. split; auto.
      * rewrite app_nil_r. apply IH.
    + cbn. rewrite app_nil_r. apply IH.
  - rewrite map_app, map_pair_snd, of_port_app. destruct M as [S M].
    destruct (in_dec N.eq_dec p (map fst l)) as [I|I].
    + apply in_map_iff in I as ([p' e] & E & I). cbn in E. subst p'.
      rewrite (of_port_one p e l) by (auto using sorted_nodup). apply protocol_snoc. split; auto.
      apply M in I as ((x & Lx & Nx) & I). change (lasto None (of_port p (map snd h))) with (last_evt p h).
      rewrite Lx in *. unfold may_follow. destruct x; try congruence; destruct I as [(-> & _ & I)|(-> & _ & I)]; try congruence; auto.
    + rewrite (of_port_nil p l) by auto. rewrite app_nil_r. apply IH.
Qed.

(** ** The table of ports *)
Definition tracked (d : option pevt) : option bool :=
  match d with None | Some Removed => None | Some Up => Some true | Some _ => Some false end.
Lemma pfind_none ports p : pfind ports p = None <-> ~ In p (map fst ports).
Proof.
  induction ports as [|[q b] r IH]; cbn; [tauto|]. destruct (N.eqb_spec q p); [subst; split; [discriminate|tauto]|].
  rewrite IH. tauto.
Qed.
Lemma pfind_in ports p b : NoDup (map fst ports) -> (pfind ports p = Some b <-> In (p, b) ports).
Proof.
  induction ports as [|[q x] r IH]; cbn; [split; [discriminate|tauto]|]. intros Nd. inversion Nd as [|? ? N1 N2]; subst.
  destruct (N.eqb_spec q p) as [->|D].
  - split; [intros [= ->]; auto|]. intros [E|I]; [congruence|]. destruct N1. change p with (fst (p, b)). now apply in_map.
  - rewrite IH by auto. split; [auto|]. intros [E|I]; [congruence|auto].
Qed.
Lemma pfind_app ports p q b : pfind (ports ++ [(q, b)]) p =
  match pfind ports p with Some x => Some x | None => if (q =? p)%N then Some b else None end.
Proof. induction ports as [|[r x] l IH]; cbn; [reflexivity|]. destruct (r =? p)%N; auto. Qed.
Lemma pfind_pset ports p q b : pfind (pset ports q b) p =
  if (q =? p)%N then match pfind ports p with Some _ => Some b | None => None end else pfind ports p.
Proof.
  induction ports as [|[r x] l IH]; cbn; [destruct (q =? p)%N; reflexivity|].
  destruct (N.eqb_spec r q) as [->|D]; cbn.
  - destruct (q =? p)%N; reflexivity.
  - destruct (N.eqb_spec r p) as [->|D2]; [|exact IH]. destruct (N.eqb_spec q p); [congruence|reflexivity].
Qed.
Lemma pset_keys ports q b : map fst (pset ports q b) = map fst ports.
Proof. induction ports as [|[r x] l IH]; cbn; [reflexivity|]. destruct (r =? q)%N; cbn; congruence. Qed.
Lemma pfind_perase ports p q : pfind (perase ports q) p = if (q =? p)%N then None else pfind ports p.
Proof.
  unfold perase. induction ports as [|[r x] l IH]; cbn; [destruct (q =? p)%N; reflexivity|].
  destruct (N.eqb_spec r q) as [->|D]; cbn.
  - rewrite IH. destruct (q =? p)%N; reflexivity.
  - rewrite IH. destruct (N.eqb_spec r p) as [->|]; [|reflexivity]. destruct (N.eqb_spec q p); [congruence|reflexivity].
Qed.
Lemma perase_nodup ports q : NoDup (map fst ports) -> NoDup (map fst (perase ports q)).
Proof.
  unfold perase. induction ports as [|[r x] l IH]; cbn; [auto|]. intros Nd. inversion Nd as [|? ? N1 N2]; subst.
  destruct (negb (r =? q)%N); cbn; auto. constructor; auto. intros I. apply N1.
  apply in_map_iff in I as (y & E & I). apply filter_In in I as [I _]. rewrite <- E. now apply in_map.
Qed.
Lemma nodup_snoc {A} (l : list A) x : NoDup l -> ~ In x l -> NoDup (l ++ [x]).
Proof.
  intros Nd N. induction Nd as [|y l N1 N2 IH]; cbn; [repeat constructor; auto|].
  constructor. { rewrite in_app_iff. cbn in *. intuition congruence. } apply IH. cbn in N. tauto.
Qed.

(** ** Polling *)
Lemma pm_poll_ports f ports : forall todo, fst (pm_poll f ports todo) = map (fun x => (fst x, f (fst x))) ports.
Proof.
  induction ports as [|[p b] r IH]; intros todo; cbn; [reflexivity|].
  specialize (IH (if negb (f p) && b then todo_insert p Down todo else if f p && negb b then todo_insert p Up todo else todo)).
  destruct (pm_poll f r _) as [r' t]. cbn in *. congruence.
Qed.
Lemma in_todo_insert p e l q x : ~ In p (map fst l) -> (In (q, x) (todo_insert p e l) <-> (q, x) = (p, e) \/ In (q, x) l).
Proof.
  induction l as [|[r y] l IH]; cbn; intros N.
  - intuition congruence.
  - destruct (N.ltb_spec p r); cbn; [intuition congruence|]. destruct (N.eqb_spec p r); [subst; tauto|]. cbn.
    rewrite IH by tauto. tauto.
Qed.
Lemma todo_insert_sorted p e l : ~ In p (map fst l) ->
  StronglySorted (fun a b : N * pevt => (fst a < fst b)%N) l ->
  StronglySorted (fun a b : N * pevt => (fst a < fst b)%N) (todo_insert p e l).
Proof.
  intros N H. induction H as [|[r y] l H IH F]; cbn; [repeat constructor|]. cbn in N.
  destruct (N.ltb_spec p r).
  - constructor; [constructor; auto|]. constructor; [cbn; auto|]. eapply Forall_impl; [|exact F]. cbn. intros a. lia.
  - destruct (N.eqb_spec p r); [subst; tauto|]. constructor; [apply IH; tauto|].
    rewrite Forall_forall in *. intros [q x] I. apply in_todo_insert in I; [|tauto]. destruct I as [I|I].
    + injection I as -> ->. cbn. lia.
    + apply (F _ I).
Qed.
Definition changed (f : N -> bool) (p : N) (b : bool) (e : pevt) : Prop :=
  (e = Up /\ f p = true /\ b = false) \/ (e = Down /\ f p = false /\ b = true).
Lemma pm_poll_todo f ports : forall todo, NoDup (map fst ports) ->
  (forall p, In p (map fst ports) -> ~ In p (map fst todo)) ->
  StronglySorted (fun a b : N * pevt => (fst a < fst b)%N) todo ->
  StronglySorted (fun a b : N * pevt => (fst a < fst b)%N) (snd (pm_poll f ports todo)) /\
  forall p e, In (p, e) (snd (pm_poll f ports todo)) <-> In (p, e) todo \/ exists b, In (p, b) ports /\ changed f p b e.
Proof.
  induction ports as [|[p b] r IH]; intros todo Nd Dj So.
  - cbn. split; auto. intros p e. split; [auto|]. intros [H|(b & [] & _)]. auto.
  - inversion Nd as [|? ? N1 N2]; subst. cbn [pm_poll].
    set (todo' := if negb (f p) && b then todo_insert p Down todo else if f p && negb b then todo_insert p Up todo else todo).
    assert (Np : ~ In p (map fst todo)) by (apply Dj; cbn; auto).
    assert (Q : forall q e, In (q, e) todo' <-> In (q, e) todo \/ q = p /\ changed f p b e).
    { intros q e. unfold todo', changed. destruct (f p), b; cbn [negb andb]; rewrite ?in_todo_insert by auto;
        intuition (try congruence). }
    assert (So' : StronglySorted (fun a b : N * pevt => (fst a < fst b)%N) todo').
    { unfold todo'. destruct (f p), b; cbn [negb andb]; auto using todo_insert_sorted. }
    destruct (IH todo' N2) as [A B]; auto.
    { intros q I J. apply in_map_iff in J as ([q' e] & E & J). cbn in E. subst q'. apply Q in J as [J|[-> _]]; auto.
      apply (Dj q). { cbn. auto. } change q with (fst (q, e)). now apply in_map. }
    destruct (pm_poll f r todo') as [r' t]. cbn [snd] in *. split; auto. intros q e. rewrite B, Q. split.
    + intros [[H|[-> H]]|(x & I & C)]; [auto| |]; right; eexists; (split; [cbn; eauto|auto]).
    + intros [H|(x & [I|I] & C)]; [auto| |].
      * injection I as -> ->. auto.
      * right. eauto.
Qed.

(** ** The invariant *)
Definition dels (l : list pstep) : list (N * pevt) :=
  flat_map (fun s => match s with Deliver p e => [(p, e)] | Send _ => [] end) l.
Definition sends (l : list pstep) : list (N * bool) :=
  flat_map (fun s => match s with Deliver _ _ => [] | Send v => v end) l.
Fixpoint shape (l : list pstep) : Prop :=
  match l with
  | [] => True
  | Deliver _ _ :: r => shape r
  | Send v :: r => v <> [] /\ r = []
  end.
Lemma shape_app ds : forall s, shape s -> shape (map (fun x => Deliver (fst x) (snd x)) ds ++ s).
Proof. induction ds; cbn; auto. Qed.

Record PI (w : bool) (m : pmon) (h : list change) : Prop := {
  pi_nodup : NoDup (map fst (pm_ports m));
  pi_track : forall p, pfind (pm_ports m) p = tracked (last_evt p h);
  pi_shape : forall t, shape (pm_todo m t);
  pi_del : forall t, by_thread t h = by_thread t (map fst (pm_log m)) ++ dels (pm_todo m t);
  pi_sent : forall t, concat (by_thread t (pm_sent m)) ++ sends (pm_todo m t) =
              if w then reports (by_thread t h) else [];
  pi_full : Forall (fun x => snd x <> []) (pm_sent m);
  pi_order : forall t, exists pre, sends (pm_todo m t) = pre ++ if w then reports (dels (pm_todo m t)) else [] }.

Lemma tset_same {A} g t (x : A) : tset g t x t = x.
Proof. unfold tset. rewrite Nat.eqb_refl. reflexivity. Qed.
Lemma tset_other {A} g t (x : A) u : u <> t -> tset g t x u = g u.
Proof. intros. unfold tset. destruct (Nat.eqb_spec u t); [contradiction|reflexivity]. Qed.

(** starting a call that makes the changes [l] *)
Lemma PI_start w m h t ps todo l :
  PI w m h -> pm_todo m t = [] -> NoDup (map fst ps) ->
  (forall p, pfind ps p = tracked (lasto (last_evt p h) (of_port p l))) ->
  shape todo -> dels todo = l -> sends todo = (if w then reports l else []) ->
  PI w (mkPM ps (pm_cbs m) (tset (pm_todo m) t todo) (pm_log m) (pm_sent m)) (h ++ map (pair t) l).
Proof.
  intros I T Nd Tr Sh D S. destruct I as [A B C DD E F G]. constructor; cbn [pm_ports pm_cbs pm_todo pm_log pm_sent]; auto.
  - intros p. rewrite last_evt_app. apply Tr.
  - intros u. destruct (Nat.eq_dec u t) as [->|N]; [rewrite tset_same; auto|rewrite tset_other; auto].
  - intros u. rewrite by_thread_app, DD. destruct (Nat.eq_dec u t) as [->|N].
    + rewrite tset_same, T, by_thread_same, D. cbn. rewrite app_nil_r. reflexivity.
    + rewrite tset_other by auto. rewrite by_thread_other by auto. apply app_nil_r.
  - intros u. rewrite by_thread_app. specialize (E u). destruct (Nat.eq_dec u t) as [->|N].
    + rewrite tset_same, by_thread_same. rewrite T in E. cbn in E. rewrite app_nil_r in E. rewrite E, S.
      destruct w; [rewrite reports_app|]; reflexivity.
    + rewrite tset_other by auto. rewrite by_thread_other by auto. rewrite app_nil_r. exact E.
  - intros u. destruct (Nat.eq_dec u t) as [->|N]; [rewrite tset_same|rewrite tset_other; auto].
    exists []. rewrite D. exact S.
Qed.

Lemma may_follow_dec d e : {may_follow d e} + {~ may_follow d e}.
Proof. destruct d as [[]|], e; cbn; (left; solve [auto]) || (right; intuition discriminate). Qed.

Lemma accept_ok ports p e h : NoDup (map fst ports) -> (forall q, pfind ports q = tracked (last_evt q h)) ->
  match pm_accept ports p e with
  | None => ~ may_follow (last_evt p h) e
  | Some ps => may_follow (last_evt p h) e /\ NoDup (map fst ps) /\
      forall q, pfind ps q = tracked (lasto (last_evt q h) (of_port q [(p, e)]))
  end.
Proof.
  intros Nd Tr. pose proof (Tr p) as Tp. unfold pm_accept.
  assert (L : forall q, lasto (last_evt q h) (of_port q [(p, e)]) = if (p =? q)%N then Some e else last_evt q h).
  { intros q. unfold of_port. cbn. destruct (p =? q)%N; reflexivity. }
  destruct (pfind ports p) as [b|] eqn:E; destruct (last_evt p h) as [x|] eqn:El; cbn in Tp; try discriminate.
  - destruct e; [|split; [|split]|..].
    + destruct x; try discriminate; cbn; intuition discriminate.
    + destruct x; try discriminate; cbn; auto.
    + apply perase_nodup; auto.
    + intros q. rewrite L, pfind_perase. destruct (N.eqb_spec p q); auto.
    + destruct b.
      * destruct x; try discriminate. cbn. intuition discriminate.
      * split; [destruct x; try discriminate; cbn; auto|]. split; [rewrite pset_keys; auto|].
        intros q. rewrite L, pfind_pset. destruct (N.eqb_spec p q); [subst; rewrite E; reflexivity|auto].
    + destruct b.
      * split; [destruct x; try discriminate; cbn; auto|]. split; [rewrite pset_keys; auto|].
        intros q. rewrite L, pfind_pset. destruct (N.eqb_spec p q); [subst; rewrite E; reflexivity|auto].
      * destruct x; try discriminate; cbn; intuition discriminate.
  - destruct x; try discriminate. destruct e; cbn; try discriminate.
    split; [reflexivity|]. split.
    { rewrite map_app. apply nodup_snoc; auto. apply pfind_none; auto. }
    intros q. rewrite L, pfind_app, Tr. destruct (N.eqb_spec p q) as [<-|]; [rewrite El; reflexivity|].
    destruct (tracked (last_evt q h)); reflexivity.
  - destruct e; cbn; try discriminate. split; [reflexivity|]. split.
    { rewrite map_app. apply nodup_snoc; auto. apply pfind_none; auto. }
    intros q. rewrite L, pfind_app, Tr. destruct (N.eqb_spec p q) as [<-|]; [rewrite El; reflexivity|].
    destruct (tracked (last_evt q h)); reflexivity.
Qed.

Lemma poll_ok ports f h : NoDup (map fst ports) -> (forall q, pfind ports q = tracked (last_evt q h)) ->
  let ps := fst (pm_poll f ports []) in let l := snd (pm_poll f ports []) in
  poll_makes h f l /\ NoDup (map fst ps) /\ forall q, pfind ps q = tracked (lasto (last_evt q h) (of_port q l)).
Proof.
  intros Nd Tr ps l. destruct (pm_poll_todo f ports [] Nd) as [So In']; [cbn; auto|constructor|]. fold l in So, In'.
  assert (Ip : forall p e, In (p, e) l <-> present (last_evt p h) /\
    ((e = Up /\ f p = true /\ last_evt p h <> Some Up) \/ (e = Down /\ f p = false /\ last_evt p h = Some Up))).
  { intros p e. rewrite In'. pose proof (Tr p) as Tp. unfold present, changed. split.
    - intros [[]|(b & I & C)]. apply pfind_in in I; auto. rewrite I in Tp.
      destruct (last_evt p h) as [x|]; [|discriminate].
      split; [exists x; split; [reflexivity|intros ->; discriminate]|].
      destruct C as [(-> & ? & ->)|(-> & ? & ->)]; [left|right]; repeat split; auto; destruct x; cbn in Tp; congruence.
    - intros ((x & Lx & Nx) & C). rewrite Lx in *. right.
      destruct C as [(-> & Fp & C)|(-> & Fp & C)].
      + exists false. split; [apply pfind_in; auto; rewrite Tp; destruct x; cbn; congruence|left; auto].
      + exists true. split; [apply pfind_in; auto; rewrite Tp; destruct x; cbn; congruence|right; auto]. }
  split; [split; auto|].
  assert (Ep : ps = map (fun x => (fst x, f (fst x))) ports) by apply pm_poll_ports.
  assert (Kp : map fst ps = map fst ports) by (rewrite Ep, map_map; reflexivity).
  split; [rewrite Kp; auto|]. intros q.
  assert (Fq : pfind ps q = match pfind ports q with Some _ => Some (f q) | None => None end).
  { rewrite Ep. clear. induction ports as [|[r b] l IH]; cbn; [reflexivity|]. destruct (N.eqb_spec r q); [subst; reflexivity|auto]. }
  rewrite Fq, Tr. destruct (in_dec N.eq_dec q (map fst l)) as [I|I].
  - apply in_map_iff in I as ([q' e] & E & I). cbn in E. subst q'.
    rewrite (of_port_one q e) by auto using sorted_nodup. unfold lasto. cbn.
    apply Ip in I as ((x & -> & Nx) & C). destruct C as [(-> & Fp & C)|(-> & Fp & C)]; rewrite Fp; destruct x; cbn; congruence.
  - rewrite of_port_nil by auto. unfold lasto. cbn.
    destruct (last_evt q h) as [x|] eqn:El; [|reflexivity]. unfold tracked.
    assert (X : forall e, ~ In (q, e) l) by (intros e J; apply I; change q with (fst (q, e)); now apply in_map).
    destruct x; try reflexivity; destruct (f q) eqn:Ef; try reflexivity; exfalso;
      [apply (X Up)|apply (X Down)|apply (X Up)]; apply Ip; rewrite El; (split; [eexists; split; [reflexivity|discriminate]|]);
      [left|right|left]; repeat split; auto; discriminate.
Qed.

Lemma dels_poll w l : dels (poll_rest w l) = l.
Proof.
  unfold poll_rest, dels. rewrite flat_map_app.
  assert (E : flat_map (fun s => match s with Deliver p e => [(p, e)] | Send _ => [] end) (map (fun x : N * pevt => Deliver (fst x) (snd x)) l) = l).
  { induction l as [|[p e] l IH]; cbn; congruence. }
  rewrite E. destruct w; [|apply app_nil_r]. destruct (filter _ l); apply app_nil_r.
Qed.
Lemma sends_poll w l : sends (poll_rest w l) = if w then reports l else [].
Proof.
  unfold poll_rest, sends. rewrite flat_map_app.
  assert (E : flat_map (fun s => match s with Deliver _ _ => [] | Send v => v end) (map (fun x : N * pevt => Deliver (fst x) (snd x)) l) = []).
  { induction l as [|[p e] l IH]; cbn; congruence. }
  rewrite E. destruct w; [|reflexivity]. rewrite <- reports_filter. destruct (filter _ l) as [|a r]; [reflexivity|].
  cbn [flat_map app]. apply app_nil_r.
Qed.
Lemma shape_poll w l : shape (poll_rest w l).
Proof.
  unfold poll_rest. apply shape_app. destruct w; [|exact I]. destruct (filter _ l); cbn; [exact I|]. split; [discriminate|reflexivity].
Qed.

Lemma PI_step w m h a m' acts : PI w m h -> changes acts h -> pm_step w m a = Some m' ->
  exists h', changes (acts ++ [a]) h' /\ PI w m' h'.
Proof.
  intros I C E. destruct a as [t p e|t f|e cb|t]; cbn [pm_step] in E.
  - destruct (pm_todo m t) eqn:T; [|discriminate].
    pose proof (accept_ok _ p e h (pi_nodup _ _ _ I) (pi_track _ _ _ I)) as Q.
    destruct (pm_accept (pm_ports m) p e) as [ps|]; injection E as <-.
    + destruct Q as (M & Nd & Tr). exists (h ++ map (pair t) [(p, e)]). split.
      * apply ch_notify; auto. left. auto.
      * eapply PI_start; eauto; unfold notify_rest; destruct e, w; cbn; auto; split; auto; discriminate.
    + exists (h ++ map (pair t) []). split; [apply ch_notify; auto; right; auto|]. cbn. rewrite app_nil_r. exact I.
  - destruct (pm_todo m t) eqn:T; [|discriminate].
    pose proof (poll_ok _ f h (pi_nodup _ _ _ I) (pi_track _ _ _ I)) as Q. cbn zeta in Q.
    destruct (pm_poll f (pm_ports m) []) as [ps l]. cbn [fst snd] in Q. injection E as <-. destruct Q as (M & Nd & Tr).
    exists (h ++ map (pair t) l). split; [apply ch_poll; auto|].
    eapply PI_start; eauto using shape_poll, dels_poll, sends_poll.
  - injection E as <-. exists h. split; [apply ch_register; auto|]. destruct I. constructor; auto.
  - exists h. split; [apply ch_run; auto|]. destruct I as [A B Sh D Sn F G].
    destruct (pm_todo m t) as [|[p e|v] r] eqn:T; [discriminate| |]; injection E as <-.
    + constructor; cbn [pm_ports pm_cbs pm_todo pm_log pm_sent]; auto.
      * intros u. destruct (Nat.eq_dec u t) as [->|N]; [rewrite tset_same|rewrite tset_other; auto].
        specialize (Sh t). rewrite T in Sh. exact Sh.
      * intros u. rewrite D, map_app, by_thread_app. cbn [map fst]. destruct (Nat.eq_dec u t) as [->|N].
        -- rewrite tset_same, T. rewrite <- app_assoc. unfold by_thread at 3. cbn. rewrite Nat.eqb_refl. reflexivity.
        -- rewrite tset_other by auto. unfold by_thread at 3. cbn. destruct (Nat.eqb_spec t u); [congruence|].
           cbn. rewrite app_nil_r. reflexivity.
      * intros u. specialize (Sn u). destruct (Nat.eq_dec u t) as [->|N]; [rewrite tset_same|rewrite tset_other; auto].
        rewrite T in Sn. exact Sn.
      * intros u. destruct (Nat.eq_dec u t) as [->|N]; [rewrite tset_same|rewrite tset_other; auto].
        destruct (G t) as [pre Gp]. rewrite T in Gp. change (sends r = pre ++ (if w then reports ((p, e) :: dels r) else [])) in Gp. rewrite Gp. destruct w; [|eauto].
        exists (pre ++ reports [(p, e)]). rewrite <- app_assoc, <- reports_app. reflexivity.
    + pose proof (Sh t) as St. rewrite T in St. destruct St as [Nv ->]. constructor; cbn [pm_ports pm_cbs pm_todo pm_log pm_sent]; auto.
      * intros u. destruct (Nat.eq_dec u t) as [->|N]; [rewrite tset_same; exact Logic.I|rewrite tset_other; auto].
      * intros u. rewrite D. destruct (Nat.eq_dec u t) as [->|N]; [rewrite tset_same, T; reflexivity|rewrite tset_other; auto].
      * intros u. specialize (Sn u). rewrite by_thread_app, concat_app. destruct (Nat.eq_dec u t) as [->|N].
        -- rewrite tset_same. rewrite T in Sn. unfold by_thread at 2. cbn. rewrite Nat.eqb_refl. cbn. cbn in Sn.
           rewrite app_nil_r in *. rewrite app_nil_r. exact Sn.
        -- rewrite tset_other by auto. unfold by_thread at 2. cbn. destruct (Nat.eqb_spec t u); [congruence|].
           cbn. rewrite app_nil_r. exact Sn.
      * apply Forall_app. split; auto.
      * intros u. destruct (Nat.eq_dec u t) as [->|N]; [rewrite tset_same|rewrite tset_other; auto].
        exists []. destruct w; reflexivity.
Qed.

Lemma PI_new w : PI w pm_new [].
Proof.
  constructor; try (intros; reflexivity).
  - constructor.
  - intros t. destruct w; reflexivity.
  - constructor.
  - intros t. exists []. destruct w; reflexivity.
Qed.
Lemma PI_run w acts : forall m h acts0 m', PI w m h -> changes acts0 h -> pm_run w m acts = Some m' ->
  exists h', changes (acts0 ++ acts) h' /\ PI w m' h'.
Proof.
  induction acts as [|a r IH]; intros m h acts0 m' I C E; cbn in E.
  - injection E as <-. rewrite app_nil_r. eauto.
  - destruct (pm_step w m a) as [m1|] eqn:S; [|discriminate].
    destruct (PI_step _ _ _ _ _ _ I C S) as (h1 & C1 & I1).
    destruct (IH _ _ _ _ I1 C1 E) as (h2 & C2 & I2). rewrite <- app_assoc in C2. eauto.
Qed.

Lemma run_app w a : forall m b, pm_run w m (a ++ b) = match pm_run w m a with Some m' => pm_run w m' b | None => None end.
Proof. induction a as [|x a IH]; intros m b; cbn; [reflexivity|]. destruct (pm_step w m x); auto. Qed.

Lemma cbs_run w acts : forall m m', pm_run w m acts = Some m' ->
  forall e, map snd (filter (fun c => pevt_eqb (fst c) e) (pm_cbs m')) =
            map snd (filter (fun c => pevt_eqb (fst c) e) (pm_cbs m)) ++ registered acts e.
Proof.
  induction acts as [|a r IH]; intros m m' E e; cbn [pm_run] in E.
  - injection E as <-. cbn. rewrite app_nil_r. reflexivity.
  - destruct (pm_step w m a) as [m1|] eqn:S; [|discriminate]. rewrite (IH _ _ E e). cbn [registered flat_map]. fold (registered r e).
    destruct a as [t p x|t f|x cb|t]; cbn [pm_step] in S.
    + destruct (pm_todo m t); [|discriminate]. destruct (pm_accept _ p x); injection S as <-; reflexivity.
    + destruct (pm_todo m t); [|discriminate]. destruct (pm_poll f _ _); injection S as <-; reflexivity.
    + injection S as <-. cbn. rewrite filter_app, map_app, <- app_assoc. f_equal. cbn. destruct (pevt_eqb x e); reflexivity.
    + destruct (pm_todo m t) as [|[p x|v] r']; [discriminate| |]; injection S as <-; reflexivity.
Qed.
