(** * C38: ageing notifications

    A sweep reports, for each table, the entries not hit for at least their timeout, leaving out those the previous sweep reported. *)
From Coq Require Import List Arith NArith ZArith Lia Bool.
From Verif Require Import Base EntryListModel MatchUnitModel MatchUnitSpec MatchUnitProofs MatchUnitConseq AgeModel AgeSpec AgeProofs.
Import ListNotations.

(** Every history of table operations, sweeps and resets goes through, and every sweep sends what the specification says. *)
Theorem C38_sweeps : forall (V : Type) cfg (es : list (aev V)), hist_ok cfg es ->
  exists s xs p, a_run (a_new cfg) es = Some (s, xs) /\ aspec_run (s_new cfg) es xs p.
Proof. intros V cfg es H. destruct (new_ok cfg es H) as [R O]. exact (a_run_ok _ _ _ _ R O). Qed.
Print Assumptions C38_sweeps.

(** What a sweep says about table [k], in terms of the table reached by its own operations: [t] is that table, and [out] is reported iff it is the handle of an idle entry and was not in the report [before]. *)
Definition says {V} (cfg : list acfg) (k : nat) (es : list (aev V)) (now : N) (before after : list N) : Prop :=
  exists id kd nb size cache outs t, nth_error cfg k = Some (id, kd, nb, size, cache) /\
    mspec_run kd nb size tab_empty (proj k es) outs t /\
    forall h, In h after <-> (exists i, aged t now i /\ h = handle_of t i) /\ ~ In h before.
Definition cfg_id (c : acfg) : N := let '(id, _, _, _, _) := c in id.

Lemma s_new_nth V cfg k (s : stt V) : nth_error (fst (s_new cfg)) k = Some s -> exists id kd nb size cache, nth_error cfg k = Some (id, kd, nb, size, cache) /\ s = mk_stt id kd nb size tab_empty [].
Proof.
  intros H. cbn [s_new fst] in H. destruct (nth_error cfg k) as [[[[[id kd] nb] size] cache]|] eqn:Q.
  - rewrite (map_nth_error _ k cfg Q) in H. injection H as <-. exists id, kd, nb, size, cache. auto.
  - apply nth_error_None in Q. rewrite (proj2 (nth_error_None _ _)) in H by (rewrite map_length; exact Q). discriminate.
Qed.
Lemma s_new_ids V cfg : map st_id (fst (@s_new V cfg)) = map cfg_id cfg.
Proof. cbn [s_new fst]. rewrite map_map. apply map_ext. intros [[[[id kd] nb] size] cache]. reflexivity. Qed.
Lemma sweep_says V cfg k (es : list (aev V)) xs p nows x p' : NoDup (map cfg_id cfg) -> aspec_run (s_new cfg) es xs p -> aspec_step p (ASweep nows) x p' -> k < length cfg ->
  exists msgs now s s', x = AMsgs msgs /\ nth_error nows k = Some now /\ nth_error (fst p) k = Some s /\ nth_error (fst p') k = Some s' /\
    nth_error (map cfg_id cfg) k = Some (st_id s') /\ reported (st_id s') msgs = st_last s' /\ says cfg k es now (st_last s) (st_last s').
Proof.
  intros D R St Hk. inversion St as [|l b nows' m l' b' Sw|]; subst. cbn [fst].
  destruct (nth_error (fst (@s_new V cfg)) k) as [s0|] eqn:H0; [|exfalso; apply nth_error_None in H0; cbn [s_new fst] in H0; rewrite map_length in H0; exact (Nat.lt_irrefl _ (Nat.lt_le_trans _ _ _ Hk H0))].
  destruct (s_new_nth V cfg k s0 H0) as (id & kd & nb & size & cache & Hc & ->).
  destruct (run_proj _ _ _ _ R k _ H0) as (outs & s & Hs & (K1 & K2 & K3 & K4) & Mr). cbn [fst st_id st_kd st_nb st_size st_tab] in *.
  destruct (sweeps_nth _ _ _ _ _ _ Sw k s Hs) as (now & hs & s' & Hn & H' & (Q1 & _) & T & L & Sp).
  assert (Ids : map st_id l = map cfg_id cfg) by (pose proof (run_ids _ _ _ _ R) as X; cbn [fst] in X; rewrite X; apply s_new_ids).
  exists m, now, s, s'. split; [reflexivity|]. split; [exact Hn|]. split; [exact Hs|]. split; [exact H'|]. split; [rewrite (map_nth_error _ k cfg Hc); cbn; congruence|]. split.
  - eapply sweeps_reported; eauto. rewrite Ids. exact D.
  - exists id, kd, nb, size, cache, outs, (st_tab s). split; [exact Hc|]. split; [exact Mr|]. intros h. rewrite L. unfold unreported. rewrite filter_In.
    destruct (sweep_inv _ _ _ _ _ _ _ Sp) as (_ & l1 & E & Ag). injection E as ->. rewrite in_map_iff. destruct (in_dec N.eq_dec h (st_last s)) as [I|I].
    + split; [intros [_ X]; discriminate|intros [_ X]; contradiction].
    + split.
      * intros [(i & <- & X) _]. split; [exists i; split; [apply Ag; exact X|reflexivity]|exact I].
      * intros [(i & X & ->) _]. split; [|reflexivity]. exists i. split; [reflexivity|apply Ag; exact X].
Qed.

(** Two consecutive sweeps with any operations between them: the second reports exactly the idle entries that the first did not report. *)
Theorem C38_consecutive : forall (V : Type) cfg (es1 mid : list (aev V)) n1 n2, NoDup (map cfg_id cfg) -> Forall no_sweep mid ->
  hist_ok cfg (es1 ++ ASweep n1 :: mid ++ [ASweep n2]) ->
  exists s xs1 m1 xmid m2, a_run (a_new cfg) (es1 ++ ASweep n1 :: mid ++ [ASweep n2]) = Some (s, xs1 ++ AMsgs m1 :: xmid ++ [AMsgs m2]) /\
    length xs1 = length es1 /\ length xmid = length mid /\
    forall k id, nth_error (map cfg_id cfg) k = Some id -> exists now, nth_error n2 k = Some now /\
      says cfg k (es1 ++ ASweep n1 :: mid) now (reported id m1) (reported id m2).
Proof.
  intros V cfg es1 mid n1 n2 D F H. destruct (C38_sweeps V cfg _ H) as (s & xs & p & E & R).
  destruct (run_app _ _ _ _ R es1 _ eq_refl) as (xs1 & xs2 & q & -> & L1 & R1 & R2). inversion R2 as [|? ? x1 q1 ? xs3 ? St1 R3]; subst.
  destruct (run_app _ _ _ _ R3 mid _ eq_refl) as (xmid & xs4 & q2 & -> & L2 & R4 & R5). inversion R5 as [|? ? x2 q3 ? xs5 ? St2 R6]; subst. inversion R6; subst.
  inversion St1 as [|l b nows' m1 l' b' Sw1|]; subst. inversion St2 as [|l2 b2 nows2 m2 l2' b2' Sw2|]; subst.
  exists s, xs1, m1, xmid, m2. split; [exact E|]. split; [exact L1|]. split; [exact L2|]. intros k id Hid.
  assert (Hk : k < length cfg) by (rewrite <- (map_length cfg_id); apply nth_error_Some; congruence).
  assert (Rall : aspec_run (s_new cfg) (es1 ++ ASweep n1 :: mid) (xs1 ++ AMsgs m1 :: xmid) (l2, b2)).
  { clear - R1 St1 R4. induction R1 as [q|q e x q' es xs q'' St R IH]; cbn [app]; [econstructor; eauto|econstructor; [exact St|apply IH; auto]]. }
  destruct (sweep_says V cfg k _ _ _ _ _ _ D R1 St1 Hk) as (ma & na & sa & sa' & X1 & _ & _ & H1 & I1 & Rp1 & _). injection X1 as <-.
  destruct (sweep_says V cfg k _ _ _ _ _ _ D Rall St2 Hk) as (mb & nb & sb & sb' & X2 & Hn & Hb & H2 & I2 & Rp2 & Sy). injection X2 as <-.
  assert (E1 : st_id sa' = id) by congruence. assert (E2 : st_id sb' = id) by congruence.
  destruct (run_keeps_last _ _ _ _ R4 F k sa' H1) as (s3 & Hs3 & L3). cbn [fst] in Hb, Hs3. rewrite Hb in Hs3. injection Hs3 as <-.
  exists nb. split; [exact Hn|]. rewrite <- E1 at 1. rewrite <- E2. rewrite Rp1, Rp2, <- L3. exact Sy.
Qed.
Print Assumptions C38_consecutive.

(** The first sweep, and the first after a reset of the monitor, reports every idle entry. *)
Theorem C38_first : forall (V : Type) cfg (pre mid : list (aev V)) now, NoDup (map cfg_id cfg) -> Forall no_sweep mid -> pre = [] \/ (exists l, pre = l ++ [AReset]) ->
  hist_ok cfg (pre ++ mid ++ [ASweep now]) ->
  exists s xs m, a_run (a_new cfg) (pre ++ mid ++ [ASweep now]) = Some (s, xs ++ [AMsgs m]) /\
    forall k id, nth_error (map cfg_id cfg) k = Some id -> exists n, nth_error now k = Some n /\ says cfg k (pre ++ mid) n [] (reported id m).
Proof.
  intros V cfg pre mid now D F P H. destruct (C38_sweeps V cfg _ H) as (s & xs & p & E & R). rewrite app_assoc in R.
  destruct (run_app _ _ _ _ R (pre ++ mid) _ eq_refl) as (xs1 & xs2 & q & -> & L1 & R1 & R2). inversion R2 as [|? ? x1 q1 ? xs3 ? St1 R3]; subst. inversion R3; subst.
  inversion St1 as [|l b nows' m1 l' b' Sw1|]; subst. exists s, xs1, m1. split; [exact E|]. intros k id Hid.
  assert (Hk : k < length cfg) by (rewrite <- (map_length cfg_id); apply nth_error_Some; congruence).
  destruct (sweep_says V cfg k _ _ _ _ _ _ D R1 St1 Hk) as (ma & na & sa & sa' & X1 & Hn & Ha & H1 & I1 & Rp1 & Sy). injection X1 as <-.
  assert (E1 : st_id sa' = id) by congruence. exists na. split; [exact Hn|]. rewrite <- E1, Rp1.
  destruct (run_app _ _ _ _ R1 pre mid eq_refl) as (ya & yb & q2 & _ & _ & Ra & Rb).
  assert (Hq : forall j s', nth_error (fst q2) j = Some s' -> st_last s' = []).
  { destruct P as [->|(l0 & ->)].
    - inversion Ra; subst. intros j s' Hj. destruct (s_new_nth _ _ _ _ Hj) as (? & ? & ? & ? & ? & _ & ->). reflexivity.
    - destruct (run_app _ _ _ _ Ra l0 _ eq_refl) as (yc & yd & q4 & _ & _ & _ & Rd). inversion Rd as [|? ? ? ? ? ? ? Sr Rr]; subst. inversion Rr; subst. inversion Sr as [| |l4 b4]; subst. cbn [fst]. intros j s' Hj.
      apply nth_error_In in Hj. apply in_map_iff in Hj. destruct Hj as (s5 & <- & _). reflexivity. }
  destruct (nth_error (fst q2) k) as [s2|] eqn:H2.
  - destruct (run_keeps_last _ _ _ _ Rb F k s2 H2) as (s3 & Hs3 & L3). cbn [fst] in Ha, Hs3. rewrite Ha in Hs3. injection Hs3 as <-. rewrite L3, (Hq k s2 H2) in Sy. exact Sy.
  - exfalso. apply nth_error_None in H2. pose proof (run_ids _ _ _ _ Rb) as X. apply (f_equal (@length _)) in X. rewrite !map_length in X. cbn [fst] in X, Ha. assert (k < length l) by (apply nth_error_Some; congruence). lia.
Qed.
Print Assumptions C38_first.

(** Notifications carry consecutive buffer ids, starting from 0 (until the monitor is reset), and none is empty. *)
Definition sent {V} (xs : list (aout V)) : list msg := flat_map (fun x => match x with AMsgs l => l | _ => [] end) xs.
Definition no_reset {V} (e : aev V) : Prop := match e with AReset => False | _ => True end.
Definition good_ids (n : nat) (m : list msg) : Prop := forall i x, nth_error m i = Some x -> fst (fst x) = (N.of_nat (n + i) mod 2 ^ 64)%N /\ snd x <> [].
Lemma good_app n m1 m2 : good_ids n m1 -> good_ids (n + length m1) m2 -> good_ids n (m1 ++ m2).
Proof.
  intros G1 G2 i x Hi. destruct (Nat.ltb_spec i (length m1)) as [L|L]; [rewrite nth_error_app1 in Hi by exact L; exact (G1 i x Hi)|].
  rewrite nth_error_app2 in Hi by exact L. pose proof (G2 _ _ Hi) as G. replace (n + length m1 + (i - length m1)) with (n + i) in G by lia. exact G.
Qed.
Lemma sweeps_good V (l : list (stt V)) nows b m l' b' : sweeps l nows b m l' b' -> forall n, b = (N.of_nat n mod 2 ^ 64)%N -> good_ids n m /\ b' = (N.of_nat (n + length m) mod 2 ^ 64)%N.
Proof.
  induction 1 as [b|s l now nows b m l' b' hs Sp U Sw IH|s l now nows b m l' b' hs Sp U Sw IH]; intros n E.
  - split; [intros [|i] x Hi; discriminate|]. cbn [length]. rewrite Nat.add_0_r. exact E.
  - exact (IH n E).
  - destruct (IH (S n)) as [G B].
    { rewrite E, N.add_mod_idemp_l by discriminate. f_equal. lia. }
    split.
    + apply (good_app n [_] m).
      * intros [|i] x Hi; [|destruct i; discriminate]. cbn in Hi. injection Hi as <-. cbn [fst snd]. rewrite Nat.add_0_r. auto.
      * cbn [length]. rewrite Nat.add_1_r. exact G.
    + cbn [length]. rewrite B. f_equal. f_equal. lia.
Qed.
Lemma run_good V (p : list (stt V) * N) es xs p' : aspec_run p es xs p' -> Forall no_reset es -> forall n, snd p = (N.of_nat n mod 2 ^ 64)%N -> good_ids n (sent xs).
Proof.
  induction 1 as [q|q e x q' es xs q'' St R IH]; intros F n E; [intros [|i] x Hi; discriminate|]. inversion F as [|? ? F1 F2]; subst.
  inversion St as [l b k o s y t Hn Sp|l b nows m l' b' Sw|l b]; subst; cbn [sent flat_map]; cbn [snd] in *.
  - exact (IH F2 n E).
  - destruct (sweeps_good V _ _ _ _ _ _ Sw n E) as [G B]. apply good_app; [exact G|]. apply IH; auto.
  - contradiction.
Qed.
Theorem C38_buffer_ids : forall (V : Type) cfg (es : list (aev V)), hist_ok cfg es -> Forall no_reset es ->
  exists s xs, a_run (a_new cfg) es = Some (s, xs) /\ forall i x, nth_error (sent xs) i = Some x -> fst (fst x) = (N.of_nat i mod 2 ^ 64)%N /\ snd x <> [].
Proof.
  intros V cfg es H F. destruct (C38_sweeps V cfg es H) as (s & xs & p & E & R). exists s, xs. split; [exact E|]. intros i x Hi. exact (run_good V _ _ _ _ R F 0 eq_refl i x Hi).
Qed.
Print Assumptions C38_buffer_ids.

(** ** A run meeting the hypotheses, and what the code does not do *)
Definition ex_cfg : list acfg := [(4%N, KExact, 1, 8, false); (9%N, KExact, 1, 8, false)].
Definition ex_key (n : N) : mkey := mkKey [n] [] 0 0%Z [].
Definition ex_hist : list (aev nat) :=
  [AOp 0 (MAdd 10 (ex_key 1) 7); AOp 0 (MTtl 10 0%N 100%N); AOp 1 (MAdd 10 (ex_key 2) 8); AOp 1 (MTtl 10 0%N 50%N);
   ASweep [60; 60]%N; ASweep [109; 109]%N; ASweep [110; 110]%N; ASweep [120; 120]%N; AOp 0 (MLookup 125 64 [1%N]); ASweep [130; 130]%N].

Lemma ex_hist_ok : hist_ok ex_cfg ex_hist.
Proof.
  split; [repeat constructor|]. intros [|[|[|k]]] id kd nb size cache H; cbn in H; try discriminate; injection H as <- <- <- <- <-; (split; [vm_compute; discriminate|apply ops_okb_ok; vm_compute; reflexivity]).
Qed.
(** Table 9's entry is idle from time 60 and reported at every other sweep; table 4's becomes idle at 110, is reported once, is skipped at 120, and is no longer idle at 130. *)
Example C38_nonvacuous : exists s xs, a_run (a_new ex_cfg) ex_hist = Some (s, xs) /\ hist_ok ex_cfg ex_hist /\
  flat_map (fun x => match x with AMsgs l => [l] | _ => [] end) xs = [[(0, 9, [0])]; []; [(1, 4, [0]); (2, 9, [0])]; []; [(3, 9, [0])]]%N.
Proof. eexists. eexists. split; [vm_compute; reflexivity|]. split; [apply ex_hist_ok|]. vm_compute. reflexivity. Qed.

(** An idle entry is not reported only once: with nothing happening to it, it is reported again two sweeps later. *)
Theorem C38_reported_once_refuted :
  ~ (forall (V : Type) cfg (es mid : list (aev V)) n1 n2 s xs1 m1 xmid m2 id h, NoDup (map cfg_id cfg) -> hist_ok cfg (es ++ ASweep n1 :: mid ++ [ASweep n2]) ->
      (forall e, In e mid -> exists n, e = ASweep n) -> length xs1 = length es -> length xmid = length mid ->
      a_run (a_new cfg) (es ++ ASweep n1 :: mid ++ [ASweep n2]) = Some (s, xs1 ++ AMsgs m1 :: xmid ++ [AMsgs m2]) ->
      In h (reported id m1) -> ~ In h (reported id m2)).
Proof.
  intros H. specialize (H nat [(4%N, KExact, 1, 8, false)] [AOp 0 (MAdd 10 (ex_key 1) 7); AOp 0 (MTtl 10 0%N 100%N)] [ASweep [120%N]] [110%N] [130%N]).
  eapply (H _ [AOut (MHandle 0%N); AOut (MCode MSuccess)] [(0, 4, [0])]%N [AMsgs []] [(1, 4, [0])]%N 4%N 0%N).
  - repeat constructor. intros [].
  - split; [repeat constructor|]. intros [|[|k]] id kd nb size cache E; cbn in E; try discriminate. injection E as <- <- <- <- <-. split; [vm_compute; discriminate|apply ops_okb_ok; vm_compute; reflexivity].
  - intros e [<-|[]]. eauto.
  - reflexivity.
  - reflexivity.
  - vm_compute. reflexivity.
  - left. reflexivity.
  - left. reflexivity.
Qed.
Print Assumptions C38_reported_once_refuted.
(** A sweep reads the clock before it scans the table; lookups do not exclude the scan.  A packet stamped between the two makes the scan's assertion fail. *)
Theorem C38_clock_race_refuted :
  ~ (forall (V : Type) cfg (es : list (aev V)), Forall (ev_fits (length cfg)) es ->
      (forall k id kd nb size cache, nth_error cfg k = Some (id, kd, nb, size, cache) -> (N.of_nat size <= 2 ^ 24)%N /\ Forall (fun o => ops_ok kd nb 0 [o]) (proj k es)) ->
      exists r, a_run (a_new cfg) es = Some r).
Proof.
  intros H. destruct (H nat [(4%N, KExact, 1, 8, false)] [AOp 0 (MAdd 10 (ex_key 1) 7); AOp 0 (MTtl 10 0%N 50%N); AOp 0 (MLookup 101 64 [1%N]); ASweep [100%N]]) as [r E].
  - repeat constructor.
  - intros [|[|k]] id kd nb size cache E; cbn in E; try discriminate. injection E as <- <- <- <- <-. split; [vm_compute; discriminate|]. cbn [proj Nat.eqb nth_error]. repeat (apply Forall_cons; [apply ops_okb_ok; vm_compute; reflexivity|]). apply Forall_nil.
  - vm_compute in E. discriminate.
Qed.
Print Assumptions C38_clock_race_refuted.
