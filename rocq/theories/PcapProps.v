(** C47: replaying and writing packet captures. *)
From Coq Require Import List Arith NArith ZArith Bool Lia Sorted Permutation.
From Verif Require Import PcapModel PcapSpec PcapProofs.
Import ListNotations.

Definition opened (fs : list file) : list infile := map (fun f => open_file (fst f) (snd f)) fs.
Definition no_adds : nat -> list infile := fun _ => [].
(** What the handler sees. *)
Definition handed (gs : list given) : list (nat * list N) := map (fun g => (g_port g, g_data g)) gs.
Definition untimed (out : list (nat * (tv * list N))) : list (nat * list N) := map (fun x => (fst x, snd (snd x))) out.

Lemma replay_first fs x out ok : replay fs (x :: out) ok ->
  exists f, In f fs /\ head_time f = Some (fst (snd x)) /\
    forall g t, In g fs -> head_time g = Some t -> ~ before t (fst (snd x)).
Proof.
  intros R. inversion R as [|? B|fs1 p t len d r fs2 out' ok' N A1 A2 R']; subst. cbn [fst snd].
  exists (p, Rec t len d :: r). split; [apply in_app_iff; cbn; auto|]. split; [reflexivity|].
  intros g tg I H. apply in_app_iff in I. cbn in I. destruct I as [I|[<-|I]].
  - specialize (A1 _ _ I H). unfold before in *. lia.
  - cbn in H. injection H as <-. unfold before. lia.
  - eauto.
Qed.

(** Whatever the files and the clock: the packets handed over are those of a replay in time order;
    the reader ends normally if and only if the replay reaches the end of all files.  Without
    timing it never sleeps; with timing it sleeps, before each packet, for what is missing to that
    packet's offset from the first one. *)
Theorem C47_replay : forall respect start clock fs fuel, length (concat (map snd fs)) < fuel ->
  exists gs o out ok, reader_start fuel respect start clock no_adds (opened fs) = (gs, o) /\
    replay fs out ok /\ o = (if ok then Finished else Exited) /\ handed gs = untimed out /\
    (respect = false -> forall g, In g gs -> slept g = 0%Z) /\
    (respect = true -> tv_ok start -> (forall i, tv_ok (clock i)) ->
     (forall f t len d, In f fs -> In (Rec t len d) (snd f) -> tv_ok t) ->
     forall x0 i x g, nth_error out 0 = Some x0 -> nth_error out i = Some x -> nth_error gs i = Some g ->
       slept g = Z.max 0 ((us (fst (snd x)) - us (fst (snd x0))) - (us (clock i) - us start))).
Proof.
  intros respect start clock fs fuel L. unfold reader_start, opened.
  pose proof (start_ok fs 0 None) as S. change (fun f : file => open_file (fst f) (snd f)) with fabs.
  destruct (start_files (map fabs fs) 0 None) as [[[l n] first]|].
  - destruct S as (E & F & -> & FL & _ & FE). cbn [Nat.add].
    destruct (scan_ok fuel respect (match first with Some t => t | None => mkTv 0 0 end) start clock 0 l F)
      as (gs & o & out & ok & Es & R & Eo & Em & Io & P).
    { rewrite (todo_start fs l E F). exact L. }
    exists gs, o, out, ok. unfold no_adds. rewrite Es, <- E. split; [reflexivity|]. split; [exact R|]. split; [exact Eo|]. split; [exact Em|].
    assert (Lg : length gs = length out) by (apply (f_equal (@length _)) in Em; rewrite !map_length in Em; exact Em).
    split.
    + intros -> g I. apply In_nth_error in I as (i & I).
      destruct (nth_error out i) as [x|] eqn:Ex.
      * rewrite (P (or_introl eq_refl) i x g Ex I). reflexivity.
      * apply nth_error_None in Ex. assert (i < length gs) by (apply nth_error_Some; congruence). lia.
    + intros -> Os Oc Ot x0 i x g H0 Hx Hg.
      assert (Oo : Forall (fun x => tv_ok (fst (snd x))) out).
      { eapply Forall_impl; [|exact Io]. intros y (f & If & len & Il). apply (Ot (abs f) _ len (snd (snd y))); auto. now apply in_map. }
      destruct out as [|y out]; [discriminate|]. cbn in H0. injection H0 as <-.
      destruct (replay_first _ _ _ _ R) as (f & If & Hf & Mf). rewrite E in If, Mf.
      assert (Ef : first = Some (fst (snd y))).
      { rewrite Forall_forall in FL. specialize (FL _ If) as FLf. unfold first_le in FLf. rewrite Hf in FLf.
        destruct first as [t0|]; [|contradiction].
        destruct FE as [FE|(g0 & tg & Ig & Hg0 & FE)]; [discriminate|]. injection FE as <-. specialize (Mf _ _ Ig Hg0).
        f_equal. destruct t0 as [s u], (fst (snd y)) as [s' u']. unfold before in *. cbn in *. f_equal; lia. }
      rewrite Ef in P. specialize (P (or_intror (conj (Forall_inv Oo) (conj Os (conj Oc Oo)))) i x g Hx Hg). exact P.
  - exists [], Exited, [], false. split; [reflexivity|]. split; [apply rp_bad; exact S|]. repeat split.
    + intros _ g [].
    + intros _ _ _ _ x0 i x g H. discriminate.
Qed.
Print Assumptions C47_replay.

(** If every record holds a whole packet, every packet of every file is handed over exactly once;
    each file's in the file's order. *)
Theorem C47_exactly_once : forall respect start clock fs fuel gs o, length (concat (map snd fs)) < fuel ->
  Forall (fun f => Forall good (snd f)) fs ->
  reader_start fuel respect start clock no_adds (opened fs) = (gs, o) ->
  o = Finished /\ Permutation (handed gs) (untimed (flat_map packets fs)) /\
  (NoDup (map fst fs) -> forall f, In f fs ->
     filter (fun x => fst x =? fst f) (handed gs) = untimed (packets f)).
Proof.
  intros respect start clock fs fuel gs o L G E.
  destruct (C47_replay respect start clock fs fuel L) as (gs' & o' & out & ok & E' & R & Eo & Em & _).
  rewrite E in E'. injection E' as <- <-. assert (ok = true) by (eapply replay_good; eauto). subst ok.
  split; [exact Eo|]. rewrite Em. split.
  - apply Permutation_map. apply replay_perm. exact R.
  - intros Nd f I. rewrite <- (replay_file fs out R Nd f I). unfold untimed. clear.
    induction out as [|[p x] out IH]; [reflexivity|]. cbn. destruct (p =? fst f); cbn; rewrite IH; reflexivity.
Qed.
Print Assumptions C47_exactly_once.

(** If each file is in time order, so is the replay; up to where it stops, if a record is bad. *)
Theorem C47_time_order : forall respect start clock fs fuel gs o, length (concat (map snd fs)) < fuel ->
  Forall (fun f => StronglySorted (fun a b => ~ before (fst (snd b)) (fst (snd a))) (packets f)) fs ->
  reader_start fuel respect start clock no_adds (opened fs) = (gs, o) ->
  exists out, handed gs = untimed out /\ (forall x, In x out -> exists f, In f fs /\ In x (packets f)) /\
    StronglySorted (fun a b => ~ before (fst (snd b)) (fst (snd a))) out.
Proof.
  intros respect start clock fs fuel gs o L G E.
  destruct (C47_replay respect start clock fs fuel L) as (gs' & o' & out & ok & E' & R & Eo & Em & _).
  rewrite E in E'. injection E' as <- <-. exists out. split; [exact Em|]. split.
  - eapply replay_in; eauto.
  - eapply replay_sorted; eauto.
Qed.
Print Assumptions C47_time_order.

(** A file added while the replay is running (port_add after start) ends the process. *)
Theorem C47_port_added_while_running_refuted :
  ~ (forall fs adds fuel gs o, length (concat (map snd fs)) + 10 < fuel -> Forall (fun f => Forall good (snd f)) fs ->
       (forall k f, In f (adds k) -> exists p l, f = open_file p l /\ Forall good l) ->
       (forall k, 1 < k -> adds k = []) -> length (adds 0) + length (adds 1) < 2 ->
       reader_start fuel false (mkTv 0 0) (fun _ => mkTv 0 0) adds (opened fs) = (gs, o) -> o = Finished).
Proof.
  intros H.
  specialize (H [(1, [Rec (mkTv 5 0) 1 [7%N]; Rec (mkTv 6 0) 1 [8%N]])] (fun k => if k =? 1 then [open_file 2 []] else []) 20 [mkGiven 1 [7%N] None] Exited).
  assert (X : Exited = Finished); [|discriminate]. apply H.
  - cbn. lia.
  - repeat constructor.
  - intros k f. destruct (k =? 1); [intros [<-|[]]; exists 2, []; split; [reflexivity|constructor]|intros []].
  - intros k Hk. destruct (Nat.eqb_spec k 1); [lia|reflexivity].
  - cbn. lia.
  - reflexivity.
Qed.
Print Assumptions C47_port_added_while_running_refuted.

(** The writer: a file holds, whole and in order, the packets sent to its port since it was added;
    packets sent to other ports are ignored. *)
Definition sent_to (p : nat) (ops : list wop) : list prec :=
  flat_map (fun o => match o with WSend now q d => if q =? p then [Rec now (length d) d] else [] | WAdd _ => [] end) ops.
Lemma w_find_append w q x p : w_find (w_append w q x) p =
  match w_find w p with Some l => Some (if q =? p then l ++ [x] else l) | None => None end.
Proof.
  induction w as [|[r l] w IH]; cbn; [reflexivity|]. destruct (Nat.eqb_spec r q) as [->|D]; cbn.
  - destruct (q =? p); [reflexivity|]. destruct (w_find w p); reflexivity.
  - destruct (Nat.eqb_spec r p) as [->|D2]; [|exact IH]. destruct (Nat.eqb_spec q p); [congruence|reflexivity].
Qed.
Lemma w_find_add w q p : w_find (w_add w q) p =
  match w_find w p with Some l => Some l | None => if q =? p then Some [] else None end.
Proof.
  assert (A : w_find (w ++ [(q, [])]) p = match w_find w p with Some l => Some l | None => if q =? p then Some [] else None end).
  { induction w as [|[r l] w IH]; cbn; [reflexivity|]. destruct (r =? p); auto. }
  unfold w_add. destruct (w_find w q) eqn:E; [|exact A].
  destruct (Nat.eqb_spec q p) as [->|]; [rewrite E; reflexivity|]. destruct (w_find w p); reflexivity.
Qed.
Lemma w_find_some ops p : forall w l, w_find w p = Some l -> w_find (fold_left w_step ops w) p = Some (l ++ sent_to p ops).
Proof.
  induction ops as [|o ops IH]; intros w l H; cbn [fold_left]; [rewrite app_nil_r; exact H|].
  unfold sent_to. cbn [flat_map]. fold (sent_to p ops). destruct o as [q|now q d]; cbn [w_step].
  - apply IH. rewrite w_find_add, H. reflexivity.
  - rewrite app_assoc. apply IH. unfold w_send. destruct (w_find w q) eqn:E.
    + rewrite w_find_append, H. destruct (q =? p); [reflexivity|rewrite app_nil_r; reflexivity].
    + rewrite H. destruct (Nat.eqb_spec q p); [congruence|rewrite app_nil_r; reflexivity].
Qed.
Lemma w_find_none ops p : forall w, w_find w p = None -> ~ In (WAdd p) ops -> w_find (fold_left w_step ops w) p = None.
Proof.
  induction ops as [|o ops IH]; intros w H N; cbn [fold_left]; [exact H|]. cbn in N. apply IH; [|tauto].
  destruct o as [q|now q d]; cbn [w_step].
  - rewrite w_find_add, H. destruct (Nat.eqb_spec q p); [subst; tauto|reflexivity].
  - unfold w_send. destruct (w_find w q); [rewrite w_find_append, H|rewrite H]; reflexivity.
Qed.
Theorem C47_writer : forall p ops,
  (~ In (WAdd p) ops -> w_find (fold_left w_step ops []) p = None) /\
  (forall ops1 ops2, ops = ops1 ++ WAdd p :: ops2 -> ~ In (WAdd p) ops1 ->
     w_find (fold_left w_step ops []) p = Some (sent_to p ops2)).
Proof.
  intros p ops. split; [apply w_find_none; reflexivity|]. intros ops1 ops2 -> N.
  rewrite fold_left_app. cbn [fold_left w_step].
  rewrite (w_find_some ops2 p _ []); [reflexivity|]. rewrite w_find_add, w_find_none; auto. rewrite Nat.eqb_refl. reflexivity.
Qed.
Print Assumptions C47_writer.

(** What was written can be replayed to the end: exactly the packets sent. *)
Theorem C47_written_replays : forall p ops1 ops2 l respect start clock fuel gs o, ~ In (WAdd p) ops1 ->
  w_find (fold_left w_step (ops1 ++ WAdd p :: ops2) []) p = Some l -> length l < fuel ->
  reader_start fuel respect start clock no_adds (opened [(p, l)]) = (gs, o) ->
  o = Finished /\
  handed gs = flat_map (fun o => match o with WSend _ q d => if q =? p then [(p, d)] else [] | WAdd _ => [] end) ops2.
Proof.
  intros p ops1 ops2 l respect start clock fuel gs o N W L E.
  destruct (C47_writer p (ops1 ++ WAdd p :: ops2)) as [_ Wr]. rewrite (Wr ops1 ops2 eq_refl N) in W. injection W as <-.
  destruct (C47_exactly_once respect start clock [(p, sent_to p ops2)] fuel gs o) as (A & _ & B); auto.
  { cbn. rewrite app_nil_r. exact L. }
  { repeat constructor. cbn. apply Forall_forall. intros x I. apply in_flat_map in I as ([q|now q d] & _ & I); [destruct I|].
    destruct (q =? p); [destruct I as [<-|[]]; reflexivity|destruct I]. }
  split; [exact A|]. assert (Nd : NoDup (map fst [(p, sent_to p ops2)])) by (cbn; repeat constructor; intros []).
  specialize (B Nd (p, sent_to p ops2) (or_introl eq_refl)). cbn [fst] in B.
  destruct (C47_replay respect start clock [(p, sent_to p ops2)] fuel) as (gs' & o' & out & ok & E' & R & Eo & Em & _).
  { cbn. rewrite app_nil_r. exact L. }
  rewrite E in E'. injection E' as <- <-.
  assert (Fp : filter (fun x => fst x =? p) (handed gs) = handed gs).
  { rewrite Em. assert (X : forall x, In x out -> fst x = p).
    { intros x I. destruct (replay_in _ _ _ R x I) as (f & [<-|[]] & Ix). unfold packets in Ix. cbn [snd fst] in Ix.
      apply in_flat_map in Ix as (r & _ & Ix). destruct r; [destruct Ix as [<-|[]]; reflexivity|destruct Ix]. }
    clear - X. induction out as [|[q y] out IH]; [reflexivity|]. cbn.
    pose proof (X (q, y) (or_introl eq_refl)) as Y. cbn in Y. subst q. rewrite Nat.eqb_refl.
    f_equal. apply IH. intros x I. apply X. cbn. auto. }
  rewrite <- Fp, B. unfold packets, sent_to, untimed. cbn [fst snd]. clear.
  induction ops2 as [|[q|now q d] r IH]; [reflexivity|exact IH|]. cbn [flat_map]. destruct (q =? p); [|exact IH].
  cbn [app flat_map map]. cbn [fst snd]. f_equal. exact IH.
Qed.
Print Assumptions C47_written_replays.

(** ** Non-vacuity *)
Definition ex_files : list file :=
  [(1, [Rec (mkTv 5 0) 1 [7%N]; Rec (mkTv 7 0) 2 [8%N; 9%N]]); (2, []); (3, [Rec (mkTv 4 999999) 1 [1%N]; Rec (mkTv 5 0) 1 [2%N]; Rec (mkTv 6 500000) 1 [3%N]])].
Example C47_nonvacuous :
  Forall (fun f => Forall good (snd f)) ex_files /\ NoDup (map fst ex_files) /\
  reader_start 20 true (mkTv 100 0) (fun i => mkTv (100 + Z.of_nat i) 300000) no_adds (opened ex_files) =
    ([mkGiven 3 [1%N] None; mkGiven 1 [7%N] None; mkGiven 3 [2%N] None; mkGiven 3 [3%N] None; mkGiven 1 [8%N; 9%N] None], Finished) /\
  reader_start 20 true (mkTv 100 0) (fun i => mkTv 100 300000) no_adds (opened ex_files) =
    ([mkGiven 3 [1%N] None; mkGiven 1 [7%N] None; mkGiven 3 [2%N] None; mkGiven 3 [3%N] (Some (mkTv 1 200001));
      mkGiven 1 [8%N; 9%N] (Some (mkTv 1 700001))], Finished).
Proof.
  split; [repeat constructor|]. split; [|split; vm_compute; reflexivity].
  cbn. repeat constructor; cbn; intuition discriminate.
Qed.
(** A record that was cut when captured ends the process, after the packets before it. *)
Example C47_cut_record :
  reader_start 20 false (mkTv 100 0) (fun i => mkTv 100 0) no_adds
    (opened [(1, [Rec (mkTv 5 0) 1 [7%N]; Rec (mkTv 5 1) 9 [8%N]; Rec (mkTv 9 0) 1 [9%N]]); (2, [Rec (mkTv 6 0) 1 [3%N]])])
  = ([mkGiven 1 [7%N] None], Exited).
Proof. vm_compute. reflexivity. Qed.
