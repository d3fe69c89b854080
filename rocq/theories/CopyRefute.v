(** C41: why the bound on the number of copies is on the slot and not on the packet. *)
From Coq Require Import List Arith NArith Bool Lia.
From Verif Require Import Base PhvModel CopyModel CopySpec CopyProofs CopyProofs2.
Import ListNotations.
Local Open Scope N_scope.

Definition news (es : list cev) : list N := flat_map (fun e => match e with ENew p => [p] | _ => [] end) es.
Definition count_pid (p : N) (l : list (N * N)) : N := N.of_nat (length (filter (fun x => fst x =? p) l)).

(** A destructor that retries after others emptied the counter stores the count it had computed before.  The next packets of the slot then do not restart from 0,
    and copy ids wrap around although no packet is copied more than 300 times and the slot is never shared *)
(** [n] copies of packet 0, each made from the one before; thread 1 starts to destroy the original; the copies are destroyed; thread 1 fails once, then succeeds *)
Definition slow_destroy : list cev :=
  flat_map whole (ANew 0 :: map (AClone 0) (map N.of_nat (seq 0 300))) ++ [EDestroy 1 0 0] ++
  flat_map whole (map (ADestroy 0) (rev (map N.of_nat (seq 1 300)))) ++ [ETry 1 false; ETry 1 false].
(** packet number [g] of the slot: [k] copies, each destroyed at once; the slot's last number is [m] *)
Fixpoint cloning (p m : N) (k : nat) : list aev := match k with O => [] | S j => AClone p 0 :: ADestroy p (m + 1) :: cloning p (m + 1) j end.
Definition pid_of (g : nat) : N := N.of_nat g * 4096.
Fixpoint lives (g : nat) (m : N) (n : nat) : list cev :=
  match n with
  | O => flat_map whole (ANew (pid_of g) :: cloning (pid_of g) m 135 ++ [AClone (pid_of g) 0])
  | S n' => flat_map whole (ANew (pid_of g) :: cloning (pid_of g) m 300 ++ [ADestroy (pid_of g) 0]) ++ lives (S g) (m + 300) n'
  end.
Definition slow_schedule : list cev := slow_destroy ++ lives 1 0 218.

Lemma some_fst {A B} (a c : A) (b d : B) : Some (a, b) = Some (c, d) -> a = c.
Proof. intros E. injection E. auto. Qed.
(** The slot's counter at the head of the array *)
Definition at_rest (m n : N) (rest : list cntr) (live : list (N * N)) : cst := mk_cs (mk_c m n :: rest) live [].
Lemma idx_pid g : idx 4096 (pid_of g) = 0%nat.
Proof. unfold idx, pid_of. rewrite N.mod_mul by discriminate. reflexivity. Qed.
Lemma pk_eqb_refl x : pk_eqb x x = true.
Proof. apply pk_eqb_iff. reflexivity. Qed.

Lemma run_clone g m n rest : m + 1 < 65536 -> n + 1 < 65536 ->
  c_run 4096 (at_rest m n rest [(pid_of g, 0)]) (whole (AClone (pid_of g) 0)) = Some (at_rest (m + 1) (n + 1) rest [(pid_of g, m + 1); (pid_of g, 0)], [(pid_of g, m + 1)]).
Proof.
  intros Hm Hn. unfold at_rest. cbn [whole c_run c_step]. unfold usable. cbn [s_live s_calls s_arr existsb negb]. rewrite pk_eqb_refl. cbn [orb andb negb].
  rewrite idx_pid. cbn [nth_error bind fst snd s_calls s_arr s_live]. unfold find_call. cbn [find fst Nat.eqb option_map snd bind of_call].
  rewrite idx_pid. cbn [nth_error bind negb andb]. rewrite cntr_eqb_refl. unfold drop_call. cbn [filter fst Nat.eqb negb].
  unfold added, w16. cbn [c_max c_num]. rewrite !N.mod_small by lia. cbn [bind fst snd list_set]. reflexivity.
Qed.
Lemma run_destroy g m n rest i live : pk_eqb (pid_of g, i) (pid_of g, i) = true ->
  c_run 4096 (at_rest m n rest ((pid_of g, i) :: live)) (whole (ADestroy (pid_of g) i)) =
  Some (at_rest (if n =? 0 then 0 else m) (if n =? 0 then 0 else n - 1) rest live, []).
Proof.
  intros Hp. unfold at_rest. cbn [whole c_run c_step]. unfold usable. cbn [s_live s_calls s_arr existsb negb]. rewrite Hp. cbn [orb andb negb].
  rewrite idx_pid. cbn [nth_error bind fst snd s_calls s_arr s_live]. unfold find_call. cbn [find fst Nat.eqb option_map snd bind of_call].
  rewrite idx_pid. cbn [nth_error bind negb andb]. rewrite cntr_eqb_refl. unfold drop_call. cbn [filter fst Nat.eqb negb].
  unfold removed. cbn [c_max c_num drop_packet]. rewrite Hp. cbn [bind fst snd list_set]. destruct (n =? 0); reflexivity.
Qed.
Fixpoint copies_made (p m : N) (k : nat) : list (N * N) := match k with O => [] | S j => (p, m + 1) :: copies_made p (m + 1) j end.
Lemma run_cloning g n rest k : forall m, m + N.of_nat k < 65536 -> n + 1 < 65536 ->
  c_run 4096 (at_rest m n rest [(pid_of g, 0)]) (flat_map whole (cloning (pid_of g) m k)) = Some (at_rest (m + N.of_nat k) n rest [(pid_of g, 0)], copies_made (pid_of g) m k).
Proof.
  induction k as [|k IH]; intros m Hm Hn; cbn [cloning flat_map copies_made].
  - cbn [c_run]. rewrite N.add_0_r. reflexivity.
  - rewrite c_run_app by reflexivity. rewrite run_clone by lia. cbn [bind fst snd].
    rewrite c_run_app by reflexivity. rewrite run_destroy by apply pk_eqb_refl. cbn [bind fst snd].
    assert (E : (n + 1 =? 0) = false) by (apply N.eqb_neq; lia). rewrite !E, N.add_sub. rewrite IH by lia. cbn [bind fst snd app].
    replace (m + 1 + N.of_nat k) with (m + N.of_nat (S k)) by lia. reflexivity.
Qed.

Lemma slots_ok_join es es' s : slots_ok 4096 s es -> (forall s' o, c_run 4096 s es = Some (s', o) -> slots_ok 4096 s' es') -> slots_ok 4096 s (es ++ es').
Proof.
  revert s. induction es as [|e r IH]; intros s H1 H2; cbn [app slots_ok c_run] in *.
  - exact (H2 _ _ eq_refl).
  - destruct H1 as [A B]. split; [exact A|]. destruct (c_step 4096 s e) as [[s1 o1]|] eqn:E; [|exact I]. apply IH; [exact B|].
    intros s' o ER. apply (H2 s' (match o1 with Some x => x :: o | None => o end)). cbn [bind fst snd]. rewrite ER. reflexivity.
Qed.
Lemma slots_ok_nonew es : news es = [] -> forall s, slots_ok 4096 s es.
Proof.
  induction es as [|e r IH]; intros H s; cbn [slots_ok]; [exact I|].
  destruct e as [p|t p i|t p i|t sp]; cbn [news flat_map app] in H; try discriminate;
    (split; [exact I|]; destruct (c_step 4096 s _) as [[s1 o1]|]; [apply IH; exact H|exact I]).
Qed.
Lemma news_app a b : news (a ++ b) = news a ++ news b.
Proof. unfold news. apply flat_map_app. Qed.
Lemma news_cloning p m k : news (flat_map whole (cloning p m k)) = [].
Proof. revert m. induction k as [|k IH]; intros m; cbn [cloning flat_map]; [reflexivity|]. rewrite !news_app, IH. reflexivity. Qed.
Lemma count_app p a b : count_pid p (a ++ b) = count_pid p a + count_pid p b.
Proof. unfold count_pid. rewrite filter_app, app_length. lia. Qed.
Lemma count_copies p q m k : count_pid q (copies_made p m k) = if p =? q then N.of_nat k else 0.
Proof.
  unfold count_pid. revert m. induction k as [|k IH]; intros m; cbn [copies_made filter fst]; [destruct (p =? q); reflexivity|].
  specialize (IH (m + 1)). destruct (p =? q); cbn [length]; lia.
Qed.

Lemma run_new p m n rest : c_run 4096 (at_rest m n rest []) (whole (ANew p)) = Some (at_rest m n rest [(p, 0)], []).
Proof. reflexivity. Qed.
(** one packet *)
Lemma run_life g m n rest : m + 300 < 65536 -> 0 < n -> n + 1 < 65536 ->
  c_run 4096 (at_rest m n rest []) (flat_map whole (ANew (pid_of g) :: cloning (pid_of g) m 300 ++ [ADestroy (pid_of g) 0])) =
  Some (at_rest (m + 300) (n - 1) rest [], copies_made (pid_of g) m 300).
Proof.
  intros Hm H0 Hn. cbn [flat_map]. rewrite c_run_app by reflexivity. rewrite run_new. cbn [bind fst snd].
  rewrite flat_map_app, c_run_app by reflexivity. rewrite run_cloning by (try exact Hn; exact Hm). cbn [bind fst snd flat_map]. rewrite app_nil_r.
  rewrite run_destroy by apply pk_eqb_refl. cbn [bind fst snd]. assert (E : (n =? 0) = false) by (apply N.eqb_neq; lia). rewrite !E, app_nil_r. reflexivity.
Qed.
Lemma run_last g m n rest : m + 135 = 65535 -> n + 1 < 65536 ->
  exists made, c_run 4096 (at_rest m n rest []) (flat_map whole (ANew (pid_of g) :: cloning (pid_of g) m 135 ++ [AClone (pid_of g) 0])) =
  Some (at_rest 0 (n + 1) rest [(pid_of g, 0); (pid_of g, 0)], made) /\ forall q, count_pid q made = if pid_of g =? q then 136 else 0.
Proof.
  intros Hm Hn. exists (copies_made (pid_of g) m 135 ++ [(pid_of g, 0)]). split.
  - cbn [flat_map]. rewrite c_run_app by reflexivity. rewrite run_new. cbn [bind fst snd].
    rewrite flat_map_app, c_run_app by reflexivity. rewrite run_cloning by (try exact Hn; change (N.of_nat 135) with 135; lia). cbn [bind fst snd flat_map]. rewrite app_nil_r.
    change (N.of_nat 135) with 135. rewrite Hm.
    unfold at_rest. cbn [whole c_run c_step]. unfold usable. cbn [s_live s_calls s_arr existsb negb]. rewrite pk_eqb_refl. cbn [orb andb negb].
    rewrite idx_pid. cbn [nth_error bind fst snd s_calls s_arr s_live]. unfold find_call. cbn [find fst Nat.eqb option_map snd bind of_call].
    rewrite idx_pid. cbn [nth_error bind negb andb]. rewrite cntr_eqb_refl. unfold drop_call. cbn [filter fst Nat.eqb negb].
    unfold added, w16. cbn [c_max c_num]. rewrite (N.mod_small (n + 1)) by lia. change ((65535 + 1) mod 65536) with 0. cbn [bind fst snd list_set]. reflexivity.
  - intros q. rewrite count_app, count_copies. unfold count_pid. cbn [filter fst]. destruct (pid_of g =? q); reflexivity.
Qed.
Lemma run_lives n : forall g m c rest, m + 300 * N.of_nat n + 135 = 65535 -> N.of_nat n <= c -> c + 1 < 65536 ->
  exists made c', c_run 4096 (at_rest m c rest []) (lives g m n) = Some (at_rest 0 c' rest [(pid_of (g + n), 0); (pid_of (g + n), 0)], made) /\
    slots_ok 4096 (at_rest m c rest []) (lives g m n) /\
    NoDup (news (lives g m n)) /\ (forall q, In q (news (lives g m n)) -> pid_of g <= q) /\
    (forall q, count_pid q made <= 300 /\ (q < pid_of g -> count_pid q made = 0)).
Proof.
  induction n as [|n IH]; intros g m c rest Hm Hc Hb.
  - destruct (run_last g m c rest) as (made & R & Q); [lia|lia|]. exists made, (c + 1). rewrite Nat.add_0_r.
    assert (Hnew : news (lives g m 0) = [pid_of g]).
    { cbn [lives flat_map]. rewrite news_app, flat_map_app, news_app, news_cloning. reflexivity. }
    split; [exact R|]. split; [|split; [|split]].
    + cbn [lives flat_map]. cbn [whole app slots_ok c_step]. split; [intros x []|]. apply slots_ok_nonew. rewrite flat_map_app, news_app, news_cloning. reflexivity.
    + rewrite Hnew. constructor; [intros []|constructor].
    + rewrite Hnew. intros q [<-|[]]. lia.
    + intros q. rewrite Q. destruct (pid_of g =? q) eqn:E; [apply N.eqb_eq in E|]; lia.
  - destruct (IH (S g) (m + 300) (c - 1) rest) as (made & c' & R & SO & D & L & Q); [lia|lia|lia|].
    assert (Hpg : pid_of (S g) = pid_of g + 4096) by (unfold pid_of; lia).
    assert (Hnew : news (lives g m (Datatypes.S n)) = pid_of g :: news (lives (Datatypes.S g) (m + 300) n)).
    { cbn [lives]. rewrite news_app. cbn [flat_map]. rewrite news_app, flat_map_app, news_app, news_cloning. reflexivity. }
    pose proof (run_life g m c rest) as RL.
    assert (H1 : m + 300 < 65536) by lia. assert (H2 : 0 < c) by lia. specialize (RL H1 H2 Hb).
    exists (copies_made (pid_of g) m 300 ++ made), c'. split; [|split; [|split; [|split]]].
    + cbn [lives]. rewrite c_run_app by reflexivity. rewrite RL. cbn [bind fst snd]. rewrite R. cbn [bind fst snd]. replace (g + Datatypes.S n)%nat with (Datatypes.S g + n)%nat by lia. reflexivity.
    + cbn [lives]. apply slots_ok_join.
      * cbn [flat_map whole app slots_ok c_step]. split; [intros x []|]. apply slots_ok_nonew. rewrite flat_map_app, news_app, news_cloning. reflexivity.
      * intros s' o E. rewrite RL in E. apply some_fst in E as <-. exact SO.
    + rewrite Hnew. constructor; [|exact D]. intros Hi. specialize (L _ Hi). lia.
    + rewrite Hnew. intros q [<-|Hi]; [lia|]. specialize (L _ Hi). lia.
    + intros q. rewrite count_app, count_copies. destruct (Q q) as [Q1 Q2]. change (N.of_nat 300) with 300. destruct (pid_of g =? q) eqn:E.
      * apply N.eqb_eq in E. subst q. rewrite Q2 by lia. lia.
      * apply N.eqb_neq in E. split; [lia|]. intros Hq. rewrite Q2 by lia. reflexivity.
Qed.

Definition slow_made : list (N * N) := map (fun i => (0, N.of_nat i)) (seq 1 300).
Lemma slow_run : c_run 4096 (c_start 4096) slow_destroy = Some (at_rest 0 299 (repeat (mk_c 0 0) 4095) [], slow_made).
Proof. vm_compute. reflexivity. Qed.

Lemma count_numbers p k : forall st, count_pid p (map (fun i => (0, N.of_nat i)) (seq st k)) = if 0 =? p then N.of_nat k else 0.
Proof.
  unfold count_pid. induction k as [|k IH]; intros st; cbn [seq map filter fst]; [destruct (0 =? p); reflexivity|].
  specialize (IH (Datatypes.S st)). destruct (0 =? p); cbn [length]; lia.
Qed.
Theorem C41_few_copies_each_refuted : ~ (forall es s made, c_run 4096 (c_start 4096) es = Some (s, made) -> slots_ok 4096 (c_start 4096) es ->
  NoDup (news es) -> (forall p, count_pid p made <= 300) -> NoDup (s_live s)).
Proof.
  intros H. destruct (run_lives 218 1 0 299 (repeat (mk_c 0 0) 4095)) as (made & c' & R & SO & D & L & Q); [reflexivity|cbn; lia|reflexivity|].
  assert (Hn0 : news slow_destroy = [0]) by (vm_compute; reflexivity).
  assert (R2 : c_run 4096 (c_start 4096) slow_schedule = Some (at_rest 0 c' (repeat (mk_c 0 0) 4095) [(pid_of (1 + 218), 0); (pid_of (1 + 218), 0)], slow_made ++ made)).
  { unfold slow_schedule. rewrite c_run_app by reflexivity. rewrite slow_run. cbn [bind fst snd]. rewrite R. reflexivity. }
  assert (S2 : slots_ok 4096 (c_start 4096) slow_schedule).
  { unfold slow_schedule. apply slots_ok_join.
    - assert (E : exists r, slow_destroy = ENew 0 :: r /\ news r = []) by (eexists; split; [reflexivity|vm_compute; reflexivity]).
      destruct E as (r & -> & Hr). cbn [slots_ok c_step]. split; [intros x []|]. apply slots_ok_nonew, Hr.
    - intros s' o E. rewrite slow_run in E. apply some_fst in E as <-. exact SO. }
  assert (D2 : NoDup (news slow_schedule)).
  { unfold slow_schedule. rewrite news_app, Hn0. constructor; [|exact D]. intros Hi. specialize (L _ Hi). unfold pid_of in L. lia. }
  assert (B : forall p, count_pid p (slow_made ++ made) <= 300).
  { intros p. rewrite count_app. destruct (Q p) as [Q1 Q2].
    assert (E : count_pid p slow_made = if 0 =? p then 300 else 0).
    { exact (count_numbers p 300 1). }
    rewrite E. destruct (0 =? p) eqn:E0; [|lia]. apply N.eqb_eq in E0. subst p. rewrite Q2 by (unfold pid_of; lia). lia. }
  specialize (H _ _ _ R2 S2 D2 B). unfold at_rest in H. cbn [s_live] in H. inversion H as [|? ? H1 H2]. apply H1. left; reflexivity.
Qed.
Print Assumptions C41_few_copies_each_refuted.
