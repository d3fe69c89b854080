(** Proofs about the direct resources of entries in the PI layer. *)
From Coq Require Import List Arith NArith ZArith Bool Lia.
From Verif Require Import Base Bits EntryListModel EntryListSpec MatchUnitModel MatchUnitSpec MatchUnitProofs
  MeterModel PiResModel PiResSpec.
Import ListNotations.

Section Refine.
Context {V RT : Type}.
Variables (conv : N -> RT) (back : option RT -> N) (gt : RT -> RT -> bool).
Variables (kd : mkind) (nbytes size : nat) (cache : bool).
Variables (counters meters ageing : bool).
Hypothesis size_ok : (N.of_nat size <= 2 ^ 24)%N.
Let again (n : N) : N := back (Some (conv n)).
Let above (c p : N) : bool := gt (conv c) (conv p).

(** A meter of the array and the meter of the place. *)
Definition met_rel (m : @meter RT) (x : smeter) : Prop :=
  length (mt_rates m) = 2 /\
  match x with
  | None => mt_conf m = false
  | Some s => mt_conf m = true /\ (ms_cb s < 2 ^ 32)%N /\ (ms_pb s < 2 ^ 32)%N /\
      exists c p, mt_get_rates m = [(Some c, ms_cb s); (Some p, ms_pb s)] /\
        ms_cir s = back (Some c) /\ ms_pir s = back (Some p)
  end.
Record PR (last : N) (s : rst V RT) (a : atab V) : Prop := {
  pr_u : MR kd nbytes size cache last (r_u s) (a_tab a);
  pr_len : length (r_m s) = size;
  pr_m : forall i m, nth_error (r_m s) i = Some m -> met_rel m (a_met a i) }.

Lemma PR_new mb : PR 0 (r_new kd size cache mb) a_empty.
Proof.
  split; cbn [r_new r_u r_m a_empty a_tab a_met].
  - apply MR_new.
  - apply repeat_length.
  - intros i m H. apply nth_error_In, repeat_spec in H. subst m. split; [reflexivity|]. reflexivity.
Qed.

Lemma PR_last last last' s a : PR last s a -> (last <= last')%N -> PR last' s a.
Proof. intros [A B C] L. split; auto. eapply MR_last; eauto. Qed.
Lemma PR_tab last s a u T : PR last s a -> MR kd nbytes size cache last u T ->
  PR last (mkRS u (r_m s)) (mkAT T (a_met a)).
Proof. intros [A B C] M. split; auto. Qed.

Lemma h32_id h : (h < 2 ^ 32)%N -> r_h32 h = h.
Proof. intros H. apply N.mod_small. exact H. Qed.

(** ** Meters *)
Lemma two {A} (l : list A) : length l = 2 -> exists x y, l = [x; y].
Proof. destruct l as [|x [|y [|]]]; try discriminate. eauto. Qed.

Lemma is_default_spec m : is_default m = true <-> unset m.
Proof.
  unfold is_default, unset. destruct m as [a b c d]; cbn [ms_cir ms_cb ms_pir ms_pb].
  rewrite !andb_true_iff, !N.eqb_eq. unfold max64, max32.
  split; [intros (((-> & ->) & ->) & ->); reflexivity|intros [= -> -> -> ->]; auto].
Qed.

Lemma set_two (x : @meter RT) c cb p pb : length (mt_rates x) = 2 ->
  mt_set_rates gt x [(c, cb); (p, pb)] =
  (if gt c p then (mkMeter (mt_bytes x) [mkRate (Some c) cb cb 0 1; mkRate (Some p) pb pb 0 2] (mt_conf x), MtBadRate)
   else (mkMeter (mt_bytes x) [mkRate (Some p) pb pb 0 2; mkRate (Some c) cb cb 0 1] true, MtOk)).
Proof.
  intros L. unfold mt_set_rates. rewrite L. cbn [length Nat.eqb negb].
  destruct (two _ L) as (r0 & r1 & ->). cbn. destruct (gt c p); reflexivity.
Qed.

Lemma set_rates_rel (x : @meter RT) y m : met_rel x y -> spec_ok m -> is_default m = false ->
  exists x' r y', (let '(x', c) := mt_set_rates gt x (from_spec conv m) in
                (x', match c with MtOk => None | _ => Some EError end)) = (x', r) /\
    meter_set again above y m r y' /\ met_rel x' y'.
Proof.
  intros [L M] [S1 S2] D. unfold from_spec. rewrite D.
  assert (U : ~ unset m) by (intros X; apply is_default_spec in X; congruence).
  rewrite (set_two x _ _ _ _ L). destruct (gt (conv (ms_cir m)) (conv (ms_pir m))) eqn:G.
  - do 3 eexists. split; [reflexivity|]. split; [apply mset_bad; auto|].
    split; [reflexivity|]. destruct y as [s|]; cbn [mt_conf]; [|exact M].
    destruct M as (M & _). split; [exact M|].
    unfold swapped, read_back. cbn [ms_cir ms_cb ms_pir ms_pb].
    split; [exact S2|]. split; [exact S1|].
    unfold mt_get_rates. cbn [mt_conf mt_rates]. rewrite M. cbn. do 2 eexists. split; [reflexivity|]. split; reflexivity.
  - do 3 eexists. split; [reflexivity|]. split; [apply mset_ok; auto|].
    split; [reflexivity|]. cbn [mt_conf]. split; [reflexivity|].
    unfold read_back. cbn [ms_cir ms_cb ms_pir ms_pb].
    split; [exact S1|]. split; [exact S2|].
    unfold mt_get_rates. cbn [mt_conf mt_rates]. cbn. do 2 eexists. split; [reflexivity|]. split; reflexivity.
Qed.

Lemma get_rel (x : @meter RT) y : met_rel x y ->
  exists m, to_spec back (mt_get_rates x) = Some m /\ match y with None => unset m | Some s => m = s end.
Proof.
  intros [L M]. destruct y as [s|].
  - destruct M as (_ & B1 & B2 & c & p & E & E1 & E2). rewrite E. cbn [to_spec].
    eexists. split; [reflexivity|]. rewrite !N.mod_small by assumption. rewrite <- E1, <- E2. destruct s; reflexivity.
  - unfold mt_get_rates. rewrite M. cbn [to_spec]. eexists. split; reflexivity.
Qed.

(** ** Single calls of the match unit *)
Ltac unit_step H o ok :=
  let u := fresh "u" in let x := fresh "x" in let T := fresh "T" in
  let E := fresh "E" in let SP := fresh "SP" in let M := fresh "M" in
  destruct (step_ok kd nbytes size cache size_ok _ _ _ o [] (pr_u _ _ _ H) (conj ok I)) as (u & x & T & E & SP & M).

Lemma valid_ok2 last s a h : PR last s a -> (h < 2 ^ 32)%N ->
  exists b, mu_step kd nbytes (r_u s) (MValid h) = Some (r_u s, MBool b) /\
    (b = true <-> slot_of (a_tab a) (h_slot h) <> None).
Proof.
  intros H L. cbn [mu_step]. rewrite handle_internal_slot.
  destruct (mr_valid kd nbytes size cache _ _ _ (h_slot h) (pr_u _ _ _ H)) as (b & E & B).
  rewrite E. eauto.
Qed.

Lemma set_at (l : list (@meter RT)) f i x y :
  (forall j m, nth_error l j = Some m -> met_rel m (f j)) -> met_rel x y ->
  forall j m, nth_error (list_set l i x) j = Some m -> met_rel m (put_met f i y j).
Proof.
  intros H R j m E. unfold put_met.
  apply (nth_set size size_ok) in E. destruct (j =? i); [subst m; exact R|auto].
Qed.

Definition PX (s : rst V RT) (a : atab V) : Prop := exists last, PR last s a.

(** A call on the unit keeps the meters. *)
Lemma px_step s a o ok : PX s a -> (forall last, ops_ok kd nbytes last [o] <-> (ok /\ True)) -> ok ->
  exists u x T, mu_step kd nbytes (r_u s) o = Some (u, x) /\ mspec_step kd nbytes size (a_tab a) o x T /\
    PX (mkRS u (r_m s)) (mkAT T (a_met a)).
Proof.
  intros [last H] K O.
  destruct (step_ok kd nbytes size cache size_ok last (r_u s) (a_tab a) o [] (pr_u _ _ _ H)) as (u & x & T & E & SP & M).
  { apply K. auto. }
  exists u, x, T. split; auto. split; auto. eexists. eapply PR_tab; [|exact M].
  eapply PR_last; [exact H|lia].
Qed.

Lemma on_meter_ok {A} s a h (err : rerr -> A) f : PX s a -> (h < 2 ^ 32)%N ->
  (meters = false /\ r_on_meter kd nbytes meters s h err f = Some (s, err ENoMeters)) \/
  (meters = true /\ slot_of (a_tab a) (h_slot h) = None /\
     exists s', r_on_meter kd nbytes meters s h err f = Some (s', err (EUnit MInvalid)) /\ PX s' a) \/
  (meters = true /\ slot_of (a_tab a) (h_slot h) <> None /\
     exists m, met_rel m (a_met a (h_slot h)) /\
     exists s', r_on_meter kd nbytes meters s h err f = Some (s', snd (f m)) /\
       forall y, met_rel (fst (f m)) y -> PX s' (mkAT (a_tab a) (put_met (a_met a) (h_slot h) y))).
Proof.
  intros [last H] L. unfold r_on_meter. rewrite (h32_id h L). remember meters as mm eqn:MM in |- *. destruct mm; cbn [negb].
  2: { left. auto. }
  right. destruct (valid_ok2 _ _ _ h H L) as (b & E & B). rewrite E.
  destruct b.
  - right. split; auto. assert (S : slot_of (a_tab a) (h_slot h) <> None) by (apply B; auto). split; auto.
    rewrite handle_internal_slot.
    assert (Lt : h_slot h < size) by (apply (mr_lt _ _ _ _ _ _ _ (pr_u _ _ _ H)); auto).
    destruct (nth_error (r_m s) (h_slot h)) as [m|] eqn:Em.
    2: { apply nth_error_None in Em. rewrite (pr_len _ _ _ H) in Em. lia. }
    exists m. split; [apply (pr_m _ _ _ H); auto|]. eexists. split; [reflexivity|].
    intros y Y. exists last. split; cbn [r_u r_m a_tab a_met].
    + exact (pr_u _ _ _ H).
    + rewrite list_set_length. exact (pr_len _ _ _ H).
    + apply set_at; auto. exact (pr_m _ _ _ H).
  - left. split; auto. split.
    + destruct (slot_of (a_tab a) (h_slot h)) eqn:X; auto. exfalso.
      assert (false = true) by (apply B; congruence). discriminate.
    + eexists. split; [reflexivity|]. exists last. destruct H. split; auto.
Qed.

Lemma set_meter_ok s a h m : PX s a -> (h < 2 ^ 32)%N -> spec_ok m ->
  (meters = false /\ r_set_meter conv gt kd nbytes meters s h m = Some (s, Some ENoMeters)) \/
  (meters = true /\ slot_of (a_tab a) (h_slot h) = None /\
     exists s', r_set_meter conv gt kd nbytes meters s h m = Some (s', Some (EUnit MInvalid)) /\ PX s' a) \/
  (meters = true /\ slot_of (a_tab a) (h_slot h) <> None /\
     exists s' r y, r_set_meter conv gt kd nbytes meters s h m = Some (s', r) /\
       meter_set again above (a_met a (h_slot h)) m r y /\
       PX s' (mkAT (a_tab a) (put_met (a_met a) (h_slot h) y))).
Proof.
  intros H L K. unfold r_set_meter.
  assert (CS : (from_spec conv m = [] /\ unset m) \/
    (is_default m = false /\ from_spec conv m = [(conv (ms_cir m), ms_cb m); (conv (ms_pir m), ms_pb m)])).
  { unfold from_spec. destruct (is_default m) eqn:D; [left|right]; auto. split; auto. apply is_default_spec. auto. }
  destruct CS as [[E U]|[D E]].
  - rewrite E.
    destruct (on_meter_ok s a h Some (fun x => (mt_reset x, None)) H L)
      as [C|[C|(M & S & x & X & s' & Es & P)]]; auto.
    right. right. split; auto. split; auto. exists s', None, None. split; [exact Es|].
    split; [apply mset_unset; auto|]. apply P. destruct X as [X _]. split; [exact X|reflexivity].
  - assert (G : forall f, (match from_spec conv m with [] => f | _ => r_on_meter kd nbytes meters s h Some
      (fun x => let '(x', c) := mt_set_rates gt x (from_spec conv m) in
                (x', match c with MtOk => None | _ => Some EError end)) end) =
      r_on_meter kd nbytes meters s h Some
      (fun x => let '(x', c) := mt_set_rates gt x (from_spec conv m) in
                (x', match c with MtOk => None | _ => Some EError end))).
    { intros f. rewrite E. reflexivity. }
    match goal with |- context [match from_spec conv m with [] => ?f | _ => _ end] =>
      replace (match from_spec conv m with [] => f | _ => _ end) with
        (r_on_meter kd nbytes meters s h Some
      (fun x => let '(x', c) := mt_set_rates gt x (from_spec conv m) in
                (x', match c with MtOk => None | _ => Some EError end))) by (rewrite E; reflexivity) end.
    destruct (on_meter_ok s a h Some (fun x => let '(x', c) := mt_set_rates gt x (from_spec conv m) in
                (x', match c with MtOk => None | _ => Some EError end)) H L)
      as [C|[C|(M & S & x & X & s' & Es & P)]]; auto.
    right. right. split; auto. split; auto.
    destruct (set_rates_rel x _ m X K D) as (x' & r & y & E1 & E2 & E3).
    rewrite E1 in Es, P. cbn [fst snd] in Es, P. exists s', r, y. auto.
Qed.

Lemma put_live (t : stab V) i e j : slot_of t j <> None -> slot_of (put_ent t i e) j <> None.
Proof. unfold put_ent, set_slot. cbn [slot_of]. destruct (j =? i); auto. discriminate. Qed.

Lemma write_ok s a h b p : PX s a -> (h < 2 ^ 32)%N ->
  (counters = false /\ r_write kd nbytes counters s h b p = Some (s, Some ENoCounters)) \/
  (counters = true /\ slot_of (a_tab a) (h_slot h) = None /\
     exists s', r_write kd nbytes counters s h b p = Some (s', Some (EUnit MInvalid)) /\ PX s' a) \/
  (counters = true /\ exists e, slot_of (a_tab a) (h_slot h) = Some e /\
     exists s', r_write kd nbytes counters s h b p = Some (s', None) /\
       PX s' (mkAT (put_ent (a_tab a) (h_slot h) (mkSent (s_key e) (s_val e) (s_ts e) b p)) (a_met a))).
Proof.
  intros H L. unfold r_write. rewrite (h32_id h L). remember counters as cc eqn:CC in |- *. destruct cc; cbn [negb]; auto.
  right. destruct (px_step s a (MWrite h b p) (h < 2 ^ 32)%N H (fun _ => iff_refl _) L) as (u & x & T & E & SP & P).
  rewrite E. inversion SP; subst; cbn [r_code].
  - left. split; auto. split; auto. eexists. split; [reflexivity|]. destruct a; exact P.
  - right. split; auto. eexists. split; [eassumption|]. eexists. split; [reflexivity|]. exact P.
Qed.

Lemma read_ok s a h : PX s a -> (h < 2 ^ 32)%N ->
  (counters = false /\ r_read kd nbytes counters s h = Some (s, inl ENoCounters)) \/
  (counters = true /\ slot_of (a_tab a) (h_slot h) = None /\
     exists s', r_read kd nbytes counters s h = Some (s', inl (EUnit MInvalid)) /\ PX s' a) \/
  (counters = true /\ exists e, slot_of (a_tab a) (h_slot h) = Some e /\
     exists s', r_read kd nbytes counters s h = Some (s', inr (s_bytes e, s_pkts e)) /\ PX s' a).
Proof.
  intros H L. unfold r_read. rewrite (h32_id h L). remember counters as cc eqn:CC in |- *. destruct cc; cbn [negb]; auto.
  right. destruct (px_step s a (MQuery h) (h < 2 ^ 32)%N H (fun _ => iff_refl _) L) as (u & x & T & E & SP & P).
  rewrite E. inversion SP; subst.
  - left. split; auto. split; auto. eexists. split; [reflexivity|]. destruct a; exact P.
  - right. split; auto. eexists. split; [eassumption|]. eexists. split; [reflexivity|]. destruct a; exact P.
Qed.

Lemma one_ok s a h c : PX s a -> (h < 2 ^ 32)%N -> cfg_ok c -> slot_of (a_tab a) (h_slot h) <> None ->
  exists s' r a', r_one conv gt kd nbytes counters meters s h c = Some (s', r) /\
    one_cfg again above counters meters (h_slot h) a c r a' /\ PX s' a' /\ slot_of (a_tab a') (h_slot h) <> None.
Proof.
  intros H L K S. destruct c as [b p|m]; cbn [r_one].
  - destruct (write_ok s a h (or_zero b) (or_zero p) H L) as [[C E]|[(C & N & _)|(C & e & Se & s' & E & P)]].
    + exists s, (Some ENoCounters), a. split; auto. split; [apply oc_no_counter; auto|auto].
    + contradiction.
    + exists s', None. eexists. split; [exact E|]. split; [|split; [exact P|]].
      * apply (oc_counter _ _ _ _ _ a b p e C Se).
      * apply put_live. auto.
  - destruct (set_meter_ok s a h m H L K) as [[C E]|[(C & N & _)|(C & _ & s' & r & y & E & MS & P)]].
    + exists s, (Some ENoMeters), a. split; auto. split; [apply oc_no_meter; auto|auto].
    + contradiction.
    + exists s', r. eexists. split; [exact E|]. split; [apply oc_meter; eauto|]. split; [exact P|auto].
Qed.

Lemma all_ok h : forall l s a, PX s a -> (h < 2 ^ 32)%N -> Forall cfg_ok l -> slot_of (a_tab a) (h_slot h) <> None ->
  exists s' r a', r_cfgs conv gt kd nbytes counters meters s h l = Some (s', r) /\
    all_cfg again above counters meters (h_slot h) a l r a' /\ PX s' a'.
Proof.
  induction l as [|c l IH]; intros s a H L K S; cbn [r_cfgs].
  - do 3 eexists. split; [reflexivity|]. split; [constructor|auto].
  - inversion K as [|? ? K1 K2]; subst.
    destruct (one_ok s a h c H L K1 S) as (s' & r & a' & E & O & P & S'). rewrite E. destruct r as [e|].
    + do 3 eexists. split; [reflexivity|]. split; [apply ac_stop; eauto|auto].
    + destruct (IH s' a' P L K2 S') as (s'' & r & a'' & E' & O' & P').
      do 3 eexists. split; [exact E'|]. split; [eapply ac_cons; eauto|auto].
Qed.

Lemma finish_ok s a h t l : PX s a -> (h < 2 ^ 32)%N -> Forall cfg_ok l -> slot_of (a_tab a) (h_slot h) <> None ->
  exists s' r a', r_finish conv gt kd nbytes counters meters ageing s h t l = Some (s', r) /\
    finish again above counters meters ageing (h_slot h) a t l r a' /\ PX s' a'.
Proof.
  intros H L K S. unfold r_finish, r_set_ttl. destruct t as [[now ns]|].
  - rewrite (h32_id h L). remember ageing as ag eqn:AG in |- *. destruct ag; cbn [negb].
    + destruct (px_step s a (MTtl now h ((ns / 1000000) mod 2 ^ 32)) (h < 2 ^ 32)%N H (fun _ => iff_refl _) L)
        as (u & x & T & E & SP & P).
      rewrite E. inversion SP; subst; cbn [r_code]; [congruence|].
      match goal with X : slot_of (a_tab a) (h_slot h) = Some ?e |- _ => rename X into Se end.
      match type of P with PX ?S1 ?A1 => destruct (all_ok h l S1 A1 P L K) as (s' & r & a' & E' & O' & P') end.
      { cbn [a_tab slot_of]. unfold set_slot. rewrite Nat.eqb_refl. discriminate. }
      do 3 eexists. split; [exact E'|]. split; [eapply fi_ttl; eauto|auto].
    + do 3 eexists. split; [reflexivity|]. split; [apply fi_off; auto|auto].
  - destruct (all_ok h l s a H L K S) as (s' & r & a' & E' & O' & P').
    do 3 eexists. split; [exact E'|]. split; [apply fi_none; eauto|eauto].
Qed.

Lemma handle_of_lt (t : stab V) i : (N.of_nat i < 2 ^ 24)%N -> (handle_of t i < 2 ^ 32)%N.
Proof.
  intros L. unfold handle_of. assert (N.of_nat (gen t i mod 256) < 256)%N.
  { assert (gen t i mod 256 < 256) by (apply Nat.mod_upper_bound; lia). lia. }
  change (2 ^ 32)%N with (256 * 2 ^ 24)%N. nia.
Qed.
Lemma handle_of_slot (t : stab V) i : (N.of_nat i < 2 ^ 24)%N -> h_slot (handle_of t i) = i.
Proof.
  intros L. unfold handle_of, h_slot. rewrite N.add_comm, N.mod_add by lia. rewrite N.mod_small by exact L. lia.
Qed.

Lemma left_eq t idle : (t < 2 ^ 32)%N -> remaining t (idle mod 2 ^ 32) = time_left t idle.
Proof.
  intros L. unfold remaining, time_left, max64. destruct (t =? 0)%N; auto.
  destruct (idle mod 2 ^ 32 <? t)%N eqn:C; auto.
  set (d := (t - idle mod 2 ^ 32)%N).
  assert (Q : (((d * 1000) mod 2 ^ 32 * 1000) mod 2 ^ 32 = (d * 10 ^ 6) mod 2 ^ 32)%N).
  { rewrite N.mul_mod_idemp_l by discriminate. f_equal. rewrite <- N.mul_assoc. reflexivity. }
  rewrite Q. destruct (N.leb_spec d 4294); auto. apply N.mod_small.
  change (2 ^ 32)%N with 4294967296%N. change (10 ^ 6)%N with 1000000%N. lia.
Qed.

(** Timeouts are 32-bit numbers. *)
Definition TT (a : atab V) : Prop := forall i, (ttl (a_tab a) i < 2 ^ 32)%N.
Lemma TT_one i a c r a' : one_cfg again above counters meters i a c r a' -> TT a -> TT a'.
Proof. intros O H. destruct O; exact H. Qed.
Lemma TT_all i a l r a' : all_cfg again above counters meters i a l r a' -> TT a -> TT a'.
Proof. induction 1; auto; intros; eauto using TT_one. Qed.
Lemma TT_finish i a t l r a' : finish again above counters meters ageing i a t l r a' -> TT a -> TT a'.
Proof.
  intros O H. destruct O; auto.
  - eapply TT_all; eauto.
  - eapply TT_all; eauto. intros j. cbn [a_tab ttl]. destruct (j =? i); [|apply H].
    apply N.mod_lt. discriminate.
Qed.

Lemma step_px s a o : PX s a -> TT a -> rop_ok kd nbytes o ->
  exists s' x a', r_step conv back gt kd nbytes counters meters ageing s o = Some (s', x) /\
    r_spec again above kd nbytes size counters meters ageing a o x a' /\ PX s' a' /\ TT a'.
Proof.
  intros H TA O. destruct o as [now k v t l|h v t l|h|ts len key|h|h b p|h|h m|now h]; cbn [r_step rop_ok] in *.
  - (* add *)
    destruct O as [O K].
    destruct (px_step s a (MAdd now k v) _ H (fun _ => iff_refl _) O) as (u & x & T & E & SP & P). rewrite E.
    assert (SP' := SP). inversion SP; subst.
    + do 3 eexists. split; [reflexivity|]. split; [apply rs_add_no; exact SP'|]. split; [destruct a; exact P|auto].
    + do 3 eexists. split; [reflexivity|]. split; [apply rs_add_no; exact SP'|]. split; [destruct a; exact P|auto].
    + assert (Li : (N.of_nat i < 2 ^ 24)%N) by lia.
      match type of P with PX ?S1 ?A1 =>
        destruct (finish_ok S1 A1 (handle_of (a_tab a) i) t l P (handle_of_lt _ _ Li) K) as (s' & r & a' & E' & F & P') end.
      { cbn [a_tab slot_of]. rewrite handle_of_slot by exact Li. unfold set_slot. rewrite Nat.eqb_refl. discriminate. }
      unfold with_u. rewrite E'. exists s', (done (RHandle (handle_of (a_tab a) i)) r), a'.
      split; [destruct r; reflexivity|]. split; [eapply rs_add; eauto|]. split; [exact P'|]. eapply TT_finish; eauto.
  - (* modify *)
    destruct O as [L K]. rewrite (h32_id h L).
    destruct (px_step s a (MMod h v) _ H (fun _ => iff_refl _) L) as (u & x & T & E & SP & P). rewrite E.
    inversion SP; subst.
    + match goal with X : resolves _ _ (inl ?c) |- _ => assert (RX := X); inversion X; subst end;
        (do 3 eexists; split; [reflexivity|]; split; [apply rs_mod_no; exact RX|]; split; [destruct a; exact P|auto]).
    + match goal with X : resolves _ _ (inr (?i, ?e)) |- _ =>
        assert (RX := X); assert (Ei : i = h_slot h) by (inversion X; reflexivity) end. subst i.
      match type of P with PX ?S1 ?A1 =>
        destruct (finish_ok S1 A1 h t l P L K) as (s' & r & a' & E' & F & P') end.
      { cbn [a_tab slot_of]. unfold set_slot. rewrite Nat.eqb_refl. discriminate. }
      unfold with_u. rewrite E'. exists s', (done ROk r), a'.
      split; [destruct r; reflexivity|]. split; [eapply rs_mod; eauto|]. split; [exact P'|]. eapply TT_finish; eauto.
  - (* delete *)
    rewrite (h32_id h O).
    destruct (px_step s a (MDel h) _ H (fun _ => iff_refl _) O) as (u & x & T & E & SP & P). rewrite E.
    assert (SP' := SP). inversion SP; subst.
    + match goal with X : resolves _ _ (inl ?c) |- _ => assert (RX := X); inversion X; subst end;
        (do 3 eexists; split; [reflexivity|]; split; [apply rs_del_no; exact RX|]; split; [destruct a; exact P|auto]).
    + do 3 eexists. split; [reflexivity|]. split; [apply rs_del; exact SP'|]. split; [exact P|exact TA].
  - (* packet *)
    destruct (px_step s a (MLookup ts len key) _ H (fun _ => iff_refl _) O) as (u & x & T & E & SP & P). rewrite E.
    inversion SP; subst.
    + do 3 eexists. split; [reflexivity|]. split; [apply rs_miss; auto|]. split; [destruct a; exact P|auto].
    + do 3 eexists. split; [reflexivity|]. split; [eapply rs_hit; eauto|]. split; [exact P|exact TA].
  - (* read counter *)
    change (h =? default_handle)%N with (h =? dflt)%N. destruct (N.eqb_spec h dflt) as [->|D].
    { do 3 eexists. split; [reflexivity|]. split; [apply rs_readc_d|auto]. }
    destruct O as [L|?]; [|contradiction].
    destruct (read_ok s a h H L) as [[C E]|[(C & S & s' & E & P)|(C & e & S & s' & E & P)]]; rewrite E.
    + do 3 eexists. split; [reflexivity|]. split; [apply rs_readc_off; auto|auto].
    + do 3 eexists. split; [reflexivity|]. split; [apply rs_readc_no; auto|auto].
    + do 3 eexists. split; [reflexivity|]. split; [apply rs_readc; eauto|auto].
  - (* write counter *)
    change (h =? default_handle)%N with (h =? dflt)%N. destruct (N.eqb_spec h dflt) as [->|D].
    { do 3 eexists. split; [reflexivity|]. split; [apply rs_writec_d|auto]. }
    destruct O as [L|?]; [|contradiction].
    assert (W : forall s0, PX s0 a -> forall b' p', (counters = true -> forall e, slot_of (a_tab a) (h_slot h) = Some e ->
        b' = match b with Some x => x | None => s_bytes e end /\ p' = match p with Some x => x | None => s_pkts e end) ->
      exists s' x a', r_done ROk (r_write kd nbytes counters s0 h b' p') = Some (s', x) /\
        r_spec again above kd nbytes size counters meters ageing a (RWriteC h b p) x a' /\ PX s' a' /\ TT a').
    { intros s0 H0 b' p' EQ.
      destruct (write_ok s0 a h b' p' H0 L) as [[C E]|[(C & S & s' & E & P)|(C & e & S & s' & E & P)]]; rewrite E; cbn [r_done].
      - do 3 eexists. split; [reflexivity|]. split; [apply rs_writec_off; auto|auto].
      - do 3 eexists. split; [reflexivity|]. split; [apply rs_writec_no; auto|auto].
      - destruct (EQ C e S) as [-> ->].
        do 3 eexists. split; [reflexivity|]. split; [apply rs_writec; eauto|]. split; [exact P|exact TA]. }
    assert (RD : (exists b' p', b = Some b' /\ p = Some p') \/
      (forall A (f : N -> N -> A) (g : A), match b, p with Some b', Some p' => f b' p' | _, _ => g end = g)).
    { destruct b as [b'|]; destruct p as [p'|]; eauto. }
    destruct RD as [(b' & p' & -> & ->)|RD].
    { apply W; auto. }
    rewrite RD.
    destruct (read_ok s a h H L) as [[C E]|[(C & S & s' & E & P)|(C & e & S & s' & E & P)]]; rewrite E.
    + do 3 eexists. split; [reflexivity|]. split; [apply rs_writec_off; auto|auto].
    + do 3 eexists. split; [reflexivity|]. split; [apply rs_writec_no; auto|auto].
    + apply W; auto. intros _ e' S'. rewrite S in S'. injection S' as <-. unfold merged. auto.
  - (* read meter *)
    change (h =? default_handle)%N with (h =? dflt)%N. destruct (N.eqb_spec h dflt) as [->|D].
    { do 3 eexists. split; [reflexivity|]. split; [apply rs_readm_d|auto]. }
    destruct O as [L|?]; [|contradiction]. unfold r_get_meter.
    destruct (on_meter_ok s a h (fun e => inl e) (fun x => (x, inr (mt_get_rates x))) H L)
      as [[C E]|[(C & S & s' & E & P)|(C & S & m & M & s' & E & P)]].
    + rewrite E. do 3 eexists. split; [reflexivity|]. split; [apply rs_readm_off; auto|auto].
    + rewrite E. do 3 eexists. split; [reflexivity|]. split; [apply rs_readm_no; auto|auto].
    + rewrite E. cbn [fst snd] in *. destruct (get_rel m _ M) as (sp & E1 & E2). rewrite E1.
      assert (PA : PX s' a).
      { destruct (P _ M) as [last [Q1 Q2 Q3]]. exists last. split; auto.
        intros i x Ex. specialize (Q3 i x Ex). cbn [a_met] in Q3. unfold put_met in Q3.
        destruct (Nat.eqb_spec i (h_slot h)) as [->|_]; exact Q3. }
      do 3 eexists. split; [reflexivity|]. split; [|split; [exact PA|auto]].
      destruct (a_met a (h_slot h)) as [x|] eqn:X; [subst sp; apply rs_readm; auto|apply rs_readm_unset; auto].
  - (* set meter *)
    destruct O as [O K]. change (h =? default_handle)%N with (h =? dflt)%N. destruct (N.eqb_spec h dflt) as [->|D].
    { do 3 eexists. split; [reflexivity|]. split; [apply rs_setm_d|auto]. }
    destruct O as [L|?]; [|contradiction].
    destruct (set_meter_ok s a h m H L K) as [[C E]|[(C & S & s' & E & P)|(C & S & s' & r & y & E & MS & P)]]; rewrite E.
    + do 3 eexists. split; [reflexivity|]. split; [apply rs_setm_off; auto|auto].
    + do 3 eexists. split; [reflexivity|]. split; [apply rs_setm_no; auto|auto].
    + eexists s', (done ROk r), _. split; [destruct r; reflexivity|]. split; [apply rs_setm; eauto|]. split; [exact P|exact TA].
  - (* time left *)
    rewrite (h32_id h O).
    destruct (px_step s a (MGetEntry h) _ H (fun _ => iff_refl _) O) as (u & x & T & E & SP & P). rewrite E.
    inversion SP; subst.
    + do 3 eexists. split; [reflexivity|]. split; [apply rs_ttl_no; auto|]. split; [destruct a; exact P|auto].
    + match goal with X : resolves _ _ (inr (?i, ?e)) |- _ =>
        assert (RX := X); assert (Ei : i = h_slot h) by (inversion X; reflexivity);
        assert (Es : slot_of (a_tab a) i = Some e) by (inversion X; subst; assumption) end. subst i.
      rewrite handle_internal_slot.
      destruct P as [last P]. destruct (nth_error (mu_meta u) (h_slot h)) as [m|] eqn:Em.
      2: { apply nth_error_None in Em.
           assert (X1 := mr_mlen _ _ _ _ _ _ _ (pr_u _ _ _ P)). cbn [r_u] in X1. rewrite X1 in Em.
           assert (X2 := mr_lt _ _ _ _ _ _ _ (pr_u _ _ _ P) (h_slot h)). cbn [a_tab] in X2. rewrite Es in X2.
           specialize (X2 ltac:(discriminate)). lia. }
      destruct (mr_meta _ _ _ _ _ _ _ (pr_u _ _ _ P) _ _ Em) as [T1 T2]. cbn [a_tab] in T1, T2.
      destruct (T2 _ Es) as (T3 & _). rewrite T1, T3.
      remember ageing as ag eqn:AG in |- *. destruct ag.
      * do 3 eexists. split; [reflexivity|]. split; [|split; [exists last; destruct a; exact P|exact TA]].
        rewrite left_eq by apply TA. eapply rs_ttl; eauto.
      * do 3 eexists. split; [reflexivity|]. split; [|split; [exists last; destruct a; exact P|exact TA]].
        eapply rs_ttl_off; eauto.
Qed.

Lemma run_px : forall ops s a, PX s a -> TT a -> Forall (rop_ok kd nbytes) ops ->
  exists s' outs a', r_run conv back gt kd nbytes counters meters ageing s ops = Some (s', outs) /\
    r_spec_run again above kd nbytes size counters meters ageing a ops outs a'.
Proof.
  induction ops as [|o ops IH]; intros s a H TA O; cbn [r_run].
  - do 3 eexists. split; [reflexivity|constructor].
  - inversion O as [|? ? O1 O2]; subst.
    destruct (step_px s a o H TA O1) as (s' & x & a' & E & SP & H' & TA'). rewrite E.
    destruct (IH s' a' H' TA' O2) as (s'' & xs & a'' & E' & SP'). rewrite E'.
    do 3 eexists. split; [reflexivity|]. econstructor; eauto.
Qed.
End Refine.
