(** Proofs about meters. *)
From Coq Require Import List Arith NArith Bool Lia.
From Verif Require Import Base MeterModel MeterSpec.
Import ListNotations.

Section Proofs.
Context {RT : Type}.
Variables (acc : RT -> N -> N) (gt : RT -> RT -> bool) (bytes : bool) (nrates : nat) (horizon : N).
Hypothesis MONO : monotone acc.
Notation accd := (accd acc).

(** Rate [r] of the meter, with index [k], is bucket [b] at time [t]. *)
Definition RB (t : N) (k : nat) (r : mrate RT) (b : bucket RT) : Prop :=
  mt_rate r = Some (b_rate b) /\ mt_burst r = b_burst b /\ mt_color r = S k /\
  (mt_tokens r <= mt_burst r)%N /\ (mt_burst r < 2 ^ 63)%N /\ (acc (b_rate b) horizon < 2 ^ 63)%N /\
  (mt_last r <= acc (b_rate b) t)%N /\
  b_level b = N.min (b_burst b) (mt_tokens r + (acc (b_rate b) t - mt_last r)).

(** Stored order: highest rate first. *)
Inductive RL (t : N) : list (mrate RT) -> list (bucket RT) -> Prop :=
| RL_nil : RL t [] []
| RL_cons : forall r rs b bs, RB t (length bs) r b -> RL t rs bs -> RL t (r :: rs) (bs ++ [b]).

Lemma RL_len t rs bs : RL t rs bs -> length rs = length bs.
Proof. induction 1; cbn; auto. rewrite app_length. cbn. lia. Qed.

Lemma accd_some r t : accd (Some r) t = acc r t. Proof. reflexivity. Qed.

Lemma RB_refill t t' k r b : RB t k r b -> (t <= t')%N -> RB t' k r (refill acc t t' b).
Proof.
  intros (A & B & C & D & E & F & G & H) L. pose proof (MONO (b_rate b) t t' L).
  unfold RB, refill; cbn [b_rate b_burst b_level]. repeat (split; auto); try lia.
Qed.
Lemma RL_refill t t' rs bs : RL t rs bs -> (t <= t')%N -> RL t' rs (map (refill acc t t') bs).
Proof.
  intros H L. induction H; cbn; [constructor|]. rewrite map_app. cbn. constructor; auto.
  rewrite map_length. apply RB_refill; auto.
Qed.

Lemma verdict_snoc_low bs (b : bucket RT) n : (b_level b < n)%N -> verdict (bs ++ [b]) n (S (length bs)).
Proof.
  intros H. right. exists (length bs), b. split; auto. split.
  { rewrite nth_error_app2, Nat.sub_diag by lia. auto. }
  split; auto. intros j b' L E. exfalso. assert (j < length (bs ++ [b])) by (apply nth_error_Some; congruence).
  rewrite app_length in *. cbn in *. lia.
Qed.
Lemma verdict_snoc_high bs (b : bucket RT) n c : (n <= b_level b)%N -> verdict bs n c -> verdict (bs ++ [b]) n c.
Proof.
  intros H [[-> F]|(k & b0 & -> & E & L & J)].
  - left. split; auto. apply Forall_app. auto.
  - right. exists k, b0. assert (k < length bs) by (apply nth_error_Some; congruence).
    split; auto. split. { rewrite nth_error_app1 by lia. auto. }
    split; auto. intros j b' Lj Ej. destruct (Nat.lt_ge_cases j (length bs)).
    + rewrite nth_error_app1 in Ej by lia. eauto.
    + rewrite nth_error_app2 in Ej by lia. destruct (j - length bs) as [|[|?]]; cbn in Ej; try discriminate. congruence.
Qed.
Lemma verdict_le bs n c : @verdict RT bs n c -> c <= length bs.
Proof.
  intros [[-> _]|(k & b & -> & E & _)]; [lia|]. assert (k < length bs) by (apply nth_error_Some; congruence). lia.
Qed.

Lemma ex_loop_ok n t rs bs : RL t rs bs -> (t <= horizon)%N ->
  exists rs' c, ex_loop acc n t rs = Some (rs', c) /\ verdict bs n c /\
    RL t rs' (firstn c bs ++ map (spend n) (skipn c bs)).
Proof.
  intros H L. induction H as [|r rs b bs (A & B & C & D & E & F & G & K) H IH]; cbn [ex_loop].
  - exists [], 0. split; auto. split; [left; split; auto|]. constructor.
  - rewrite A, accd_some. pose proof (MONO (b_rate b) t horizon L) as M.
    destruct (N.ltb_spec (acc (b_rate b) t) (mt_last r)); [lia|].
    assert (TK : N.min ((mt_tokens r + (acc (b_rate b) t - mt_last r)) mod 2 ^ 64) (mt_burst r) = b_level b).
    { rewrite N.mod_small by (change (2 ^ 64)%N with (2 ^ 63 + 2 ^ 63)%N; lia). rewrite K, B. lia. }
    rewrite TK. destruct (N.ltb_spec (b_level b) n) as [LT|GE].
    + do 2 eexists. split; [reflexivity|]. rewrite C. split; [apply verdict_snoc_low; auto|].
      rewrite firstn_all2 by (rewrite app_length; cbn; lia). rewrite skipn_all2 by (rewrite app_length; cbn; lia).
      cbn [map]. rewrite app_nil_r. constructor; auto.
      unfold RB; cbn [mt_rate mt_burst mt_tokens mt_last mt_color]. repeat (split; auto); try lia.
    + destruct IH as (rs' & c & -> & V & RL'). do 2 eexists. split; [reflexivity|]. split; [apply verdict_snoc_high; auto|].
      pose proof (verdict_le _ _ _ V) as CL.
      rewrite firstn_app, skipn_app. replace (c - length bs) with 0 by lia. cbn [firstn skipn].
      rewrite app_nil_r, map_app, app_assoc. cbn [map]. constructor; auto.
      assert (LN : length (firstn c bs ++ map (spend n) (skipn c bs)) = length bs).
      { rewrite app_length, map_length, firstn_length, skipn_length. lia. }
      rewrite LN. unfold RB; cbn [mt_rate mt_burst mt_tokens mt_last mt_color spend b_rate b_burst b_level]. repeat (split; auto); try lia.
Qed.

(** Safety only: no assertion fails. *)
Definition RS (t : N) (r : mrate RT) : Prop := (mt_last r <= accd (mt_rate r) t)%N.
Lemma accd_mono r t t' : (t <= t')%N -> (accd r t <= accd r t')%N.
Proof. intros L. destruct r; cbn; [apply MONO; auto|lia]. Qed.
Lemma ex_loop_safe n t rs : Forall (RS t) rs -> exists rs' c, ex_loop acc n t rs = Some (rs', c) /\
  Forall (RS t) rs' /\ length rs' = length rs.
Proof.
  induction 1 as [|r rs H F IH]; cbn [ex_loop]; [eauto|]. unfold RS in H.
  destruct (N.ltb_spec (accd (mt_rate r) t) (mt_last r)); [lia|].
  destruct (_ <? n)%N.
  - do 2 eexists. split; [reflexivity|]. split; [|auto]. constructor; auto. unfold RS; cbn. lia.
  - destruct IH as (rs' & c & -> & F' & Ln). do 2 eexists. split; [reflexivity|]. split; [|cbn; auto].
    constructor; auto. unfold RS; cbn. lia.
Qed.
Lemma RL_safe t rs bs : RL t rs bs -> Forall (RS t) rs.
Proof. induction 1 as [|r rs b bs (A & B & C & D & E & F & G & K) H IH]; constructor; auto. unfold RS. rewrite A. exact G. Qed.

(** Configuration. *)
Definition fresh (k : nat) (c : RT * N) : mrate RT := mkRate (Some (fst c)) (snd c) (snd c) 0 (S k).
Fixpoint freshes (k : nat) (cfgs : list (RT * N)) : list (mrate RT) :=
  match cfgs with [] => [] | c :: r => fresh k c :: freshes (S k) r end.

Definition sorted_from (p : option RT) (cfgs : list (RT * N)) : Prop :=
  (match p, cfgs with Some r, c :: _ => gt r (fst c) = false | _, _ => True end) /\ sorted_rates gt cfgs.

Lemma sorted_cons c cfgs : sorted_rates gt (c :: cfgs) <-> sorted_from (Some (fst c)) cfgs.
Proof.
  unfold sorted_from, sorted_rates. split.
  - intros H. split.
    + destruct cfgs as [|d cfgs]; auto. apply (H 0); reflexivity.
    + intros i a b A B. apply (H (S i)); auto.
  - intros [A B] [|i] a b X Y; cbn in X, Y.
    + injection X as <-. destruct cfgs; cbn in Y; [discriminate|]. injection Y as <-. auto.
    + apply (B i); auto.
Qed.

Lemma list_set_app {A} (l r : list A) x y : list_set (l ++ x :: r) (length l) y = l ++ y :: r.
Proof. induction l; cbn; auto. f_equal. auto. Qed.

Lemma set_loop_ok cfgs : forall done rest p, length cfgs = length rest ->
  (match p with None => done = [] | Some r => exists d x, done = d ++ [x] /\ mt_rate x = Some r end) ->
  (sorted_from p cfgs /\ set_loop gt (done ++ rest) (length done) cfgs = (done ++ freshes (length done) cfgs, MtOk)) \/
  (~ sorted_from p cfgs /\ exists rs, set_loop gt (done ++ rest) (length done) cfgs = (rs, MtBadRate) /\
     length rs = length (done ++ rest) /\ Forall (fun r => In r (done ++ rest) \/ mt_last r = 0%N) rs).
Proof.
  induction cfgs as [|c cfgs IH]; intros done rest p L P.
  - destruct rest; [|discriminate]. left. split; [split; [destruct p; auto|intros [|i]; discriminate]|]. reflexivity.
  - destruct rest as [|x rest]; [discriminate|]. cbn in L. cbn [set_loop].
    unfold set_rate. rewrite list_set_app. fold (fresh (length done) c).
    assert (STEP : (match p with Some r => gt r (fst c) = false | None => True end) ->
      (sorted_from p (c :: cfgs) /\ set_loop gt (done ++ fresh (length done) c :: rest) (S (length done)) cfgs = (done ++ freshes (length done) (c :: cfgs), MtOk)) \/
      (~ sorted_from p (c :: cfgs) /\ exists rs, set_loop gt (done ++ fresh (length done) c :: rest) (S (length done)) cfgs = (rs, MtBadRate) /\
         length rs = length (done ++ x :: rest) /\ Forall (fun r => In r (done ++ x :: rest) \/ mt_last r = 0%N) rs)).
    { intros OKp. destruct (IH (done ++ [fresh (length done) c]) rest (Some (fst c)) ltac:(lia)) as [[S1 S2]|(S1 & rs & S2 & S3 & S4)].
      { exists done, (fresh (length done) c). auto. }
      - left. rewrite app_length, <- app_assoc, <- app_assoc in S2. cbn in S2. rewrite Nat.add_1_r in S2. split; [|exact S2].
        split; [exact OKp|]. apply sorted_cons. exact S1.
      - right. rewrite app_length, <- app_assoc in S2. cbn in S2. rewrite Nat.add_1_r in S2. split.
        + intros [_ Q]. apply S1. apply sorted_cons. exact Q.
        + exists rs. split; [exact S2|]. split; [rewrite S3, !app_length; cbn; lia|].
          eapply Forall_impl; [|exact S4]. intros r [I|I]; auto. rewrite <- app_assoc in I. apply in_app_or in I as [I|[I|I]].
          * left. apply in_or_app; auto.
          * right. subst r. reflexivity.
          * left. apply in_or_app; right; right; auto. }
    destruct p as [r|].
    + destruct P as (d & y & -> & Y). destruct y as [yr yb yt yl yc]; cbn in Y; subst yr.
      rewrite app_length. cbn [length]. rewrite Nat.add_1_r.
      rewrite <- app_assoc. cbn [app]. rewrite nth_error_app2, Nat.sub_diag by lia. cbn [nth_error].
      destruct (gt r (fst c)) eqn:G.
      * right. split; [intros [Q _]; cbn in Q; congruence|]. eexists. split; [reflexivity|].
        split; [repeat rewrite !app_length; cbn; repeat (rewrite !app_length; cbn); lia|].
        apply Forall_app. split; [apply Forall_forall; intros z Z; left; rewrite <- app_assoc; apply in_or_app; auto|].
        constructor; [left; rewrite <- app_assoc; apply in_or_app; right; left; auto|].
        constructor; [right; reflexivity|]. apply Forall_forall; intros z Z. left. rewrite <- app_assoc. apply in_or_app. right; right; right; auto.
      * specialize (STEP eq_refl). rewrite app_length in STEP. cbn [length] in STEP. rewrite Nat.add_1_r in STEP.
        rewrite <- !app_assoc in STEP. cbn [app] in STEP. rewrite <- !app_assoc. cbn [app]. exact STEP.
    + subst done. cbn [length app] in *. apply STEP. exact I.
Qed.

Lemma freshes_len k cfgs : length (freshes k cfgs) = length cfgs.
Proof. revert k; induction cfgs; cbn; auto. Qed.
Definition newb (c : RT * N) : bucket RT := mkB (fst c) (snd c) (snd c).
Lemma freshes_snoc cfgs c : forall k, freshes k (cfgs ++ [c]) = freshes k cfgs ++ [fresh (k + length cfgs) c].
Proof.
  induction cfgs as [|d cfgs IH]; intros k; cbn; [rewrite Nat.add_0_r; auto|]. rewrite IH. do 4 f_equal. lia.
Qed.
Lemma freshes_RL t cfgs : Forall (fun c => (snd c < 2 ^ 63)%N /\ (acc (fst c) horizon < 2 ^ 63)%N) cfgs ->
  RL t (rev (freshes 0 cfgs)) (map newb cfgs).
Proof.
  induction cfgs as [|c cfgs IH] using rev_ind; intros F; [constructor|].
  apply Forall_app in F as [F1 F2]. inversion F2 as [|? ? [A B] _]; subst.
  rewrite freshes_snoc, rev_app_distr, map_app. cbn [rev app map]. constructor; auto.
  rewrite map_length. unfold RB, fresh, newb; cbn [mt_rate mt_burst mt_tokens mt_last mt_color b_rate b_burst b_level].
  repeat (split; auto); try lia.
Qed.

Lemma RL_get t rs bs : RL t rs bs ->
  rev (map (fun r => (mt_rate r, mt_burst r)) rs) = map (fun b => (Some (b_rate b), b_burst b)) bs.
Proof.
  induction 1 as [|r rs b bs (A & B & _) H IH]; cbn; auto. rewrite IH, map_app, A, B. reflexivity.
Qed.

(** ** The invariant *)
Definition MR (m : meter RT) (s : mst RT) (t : N) : Prop :=
  mt_bytes m = bytes /\ length (mt_rates m) = nrates /\ Forall (RS t) (mt_rates m) /\
  match s with
  | SOff => mt_conf m = false
  | SOn bs => mt_conf m = true /\ RL t (mt_rates m) bs
  | SUnknown => mt_conf m = true
  end.

Lemma MR_new : MR (mt_new bytes nrates) SOff 0.
Proof.
  unfold MR, mt_new; cbn. rewrite repeat_length. repeat (split; auto).
  apply Forall_forall. intros r H. apply repeat_spec in H. subst. unfold RS; cbn. lia.
Qed.

Lemma set_ok m s t cfgs : MR m s t ->
  Forall (fun c => (snd c < 2 ^ 63)%N /\ (acc (fst c) horizon < 2 ^ 63)%N) cfgs ->
  exists m' c s', mt_set_rates gt m cfgs = (m', c) /\ mtspec acc gt bytes nrates s t (MtSet cfgs) (MtCode c) s' t /\ MR m' s' t.
Proof.
  intros (B & L & F & M) OK. unfold mt_set_rates. destruct (Nat.eqb_spec (length cfgs) (length (mt_rates m))) as [E|E]; cbn [negb].
  2:{ do 3 eexists. split; [reflexivity|]. split; [apply ss_list; congruence|]. unfold MR; auto. }
  destruct (set_loop_ok cfgs [] (mt_rates m) None E eq_refl) as [[[_ S1] S2]|(S1 & rs & S2 & S3 & S4)]; cbn [length app] in *; rewrite S2.
  - do 3 eexists. split; [reflexivity|]. split; [apply ss_set; auto; congruence|].
    pose proof (freshes_RL t cfgs OK) as R. unfold MR; cbn. split; auto. split; [rewrite rev_length, freshes_len; congruence|].
    split; [eapply RL_safe; eauto|]. split; auto.
  - do 3 eexists. split; [reflexivity|]. split; [apply ss_rate; [congruence|]|].
    { intros Q. apply S1. split; auto. }
    assert (F' : Forall (RS t) rs).
    { eapply Forall_impl; [|exact S4]. intros r [I|I]; [eapply Forall_forall; eauto|]. unfold RS. rewrite I. lia. }
    destruct s; cbn [MR mt_bytes mt_rates mt_conf] in *; (split; [exact B|]; split; [cbn [mt_rates]; congruence|]; split; [exact F'|]; cbn [mt_conf]); intuition.
Qed.

Lemma exec_ok m s t len pre t' : MR m s t -> (t <= t')%N -> (t' <= horizon)%N ->
  exists m' c s', mt_execute acc m len pre t' = Some (m', c) /\
    mtspec acc gt bytes nrates s t (MtExec len pre t') (MtColor c) s' t' /\ MR m' s' t'.
Proof.
  intros (B & L & F & M) T1 T2. unfold mt_execute.
  assert (F' : Forall (RS t') (mt_rates m)).
  { eapply Forall_impl; [|exact F]. intros r H. unfold RS in *. pose proof (accd_mono (mt_rate r) t t' T1). lia. }
  rewrite B. destruct s as [|bs|].
  - rewrite M. cbn [negb]. do 3 eexists. split; [reflexivity|]. split; [apply ss_off; auto|].
    unfold MR. repeat (split; auto).
  - destruct M as [-> RLs]. cbn [negb].
    destruct (ex_loop_ok (if bytes then len else 1%N) t' _ _ (RL_refill _ _ _ _ RLs T1) T2) as (rs' & c & -> & V & R').
    do 3 eexists. split; [reflexivity|]. split; [eapply ss_exec; [reflexivity|exact V]|].
    unfold MR; cbn. split; auto. split; [|split; [eapply RL_safe; eauto|split; [auto|exact R']]].
    rewrite (RL_len _ _ _ R'), <- L, (RL_len _ _ _ RLs). apply verdict_le in V. rewrite map_length in V.
    rewrite app_length, map_length, firstn_length, skipn_length, !map_length. lia.
  - rewrite M. cbn [negb]. destruct (ex_loop_safe (if bytes then len else 1%N) t' _ F') as (rs' & c & -> & F2 & L2).
    do 3 eexists. split; [reflexivity|]. split; [apply ss_exec_unknown; auto; lia|].
    unfold MR; cbn. repeat (split; auto). congruence.
Qed.

Theorem run_ok ops : forall m s t, MR m s t -> mtops_ok acc horizon t ops ->
  exists m' outs s' t', mt_run acc gt m ops = Some (m', outs) /\ mtspec_run acc gt bytes nrates s t ops outs s' t' /\ MR m' s' t'.
Proof.
  induction ops as [|o ops IH]; intros m s t M OK.
  - exists m, [], s, t. split; [reflexivity|]. split; [constructor|auto].
  - cbn [mt_run].
    assert (ST : exists m' x s' t', mt_step acc gt m o = Some (m', x) /\ mtspec acc gt bytes nrates s t o x s' t' /\ MR m' s' t' /\ mtops_ok acc horizon t' ops).
    { destruct o as [cfgs| |len pre t'|]; cbn [mtops_ok] in OK; cbn [mt_step].
      - destruct OK as [O1 O2]. destruct (set_ok m s t cfgs M O1) as (m' & c & s' & -> & S1 & S2). do 4 eexists. split; [reflexivity|]. split; [exact S1|]. auto.
      - do 4 eexists. split; [reflexivity|]. split; [apply ss_reset|]. split; auto. destruct M as (A & B & C & D). unfold MR, mt_reset; cbn. auto.
      - destruct OK as [[O1 O2] O3]. destruct (exec_ok m s t len pre t' M O1 O2) as (m' & c & s' & -> & S1 & S2).
        do 4 eexists. split; [reflexivity|]. split; [exact S1|]. auto.
      - exists m, (MtRates (mt_get_rates m)), s, t. split; [reflexivity|]. split; [|auto].
        unfold mt_get_rates. destruct M as (A & B & C & D). destruct s as [|bs|].
        + rewrite D. apply ss_get_off. auto.
        + destruct D as [-> D]. rewrite (RL_get _ _ _ D). apply ss_get. auto.
        + apply ss_get_unknown. auto. }
    destruct ST as (m' & x & s' & t' & -> & S1 & S2 & S3). destruct (IH m' s' t' S2 S3) as (m'' & xs & s'' & t'' & -> & R1 & R2).
    do 4 eexists. split; [reflexivity|]. split; [|exact R2]. econstructor; eauto.
Qed.

(** ** Consequences on the specification: the token bound *)
Lemma verdict_enough bs n c k b : verdict bs n c -> c <= k -> nth_error bs k = Some b -> (n <= @b_level RT b)%N.
Proof.
  intros [[-> F]|(j & b0 & -> & E & L & J)] H N.
  - eapply Forall_forall in F; [|eapply nth_error_In; eauto]. cbn in F. lia.
  - apply J in N; lia.
Qed.

Lemma nth_error_mid {A} (f : A -> A) (l : list A) c k x :
  nth_error l k = Some x ->
  nth_error (firstn c l ++ map f (skipn c l)) k = Some (if c <=? k then f x else x).
Proof.
  intros E. assert (k < length l) by (apply nth_error_Some; congruence).
  destruct (Nat.leb_spec c k) as [L|L].
  - rewrite nth_error_app2; rewrite firstn_length, Nat.min_l by lia; auto.
    rewrite nth_error_map, <- (firstn_skipn c l) in *. rewrite nth_error_app2 in E; rewrite firstn_length, firstn_skipn, Nat.min_l in * by lia; auto.
    rewrite E. reflexivity.
  - rewrite nth_error_app1 by (rewrite firstn_length; lia).
    rewrite <- (firstn_skipn c l) in E. rewrite nth_error_app1 in E; auto. rewrite firstn_length. lia.
Qed.

Lemma exec_bound bs t t' len pre c s' k b :
  mtspec acc gt bytes nrates (SOn bs) t (MtExec len pre t') (MtColor c) s' t' -> nth_error bs k = Some b ->
  exists bs' b', s' = SOn bs' /\ nth_error bs' k = Some b' /\ b_rate b' = b_rate b /\ b_burst b' = b_burst b /\
    ((if (c <=? k)%nat then size_of bytes len else 0) + b_level b' <= b_level (refill acc t t' b))%N.
Proof.
  intros H E. inversion H as [| | | | |? ? ? bs0 c0 EQ V| | | |]; subst; try discriminate. injection EQ as ->.
  assert (E' : nth_error (map (refill acc t t') bs0) k = Some (refill acc t t' b)) by (rewrite nth_error_map, E; auto).
  pose proof (nth_error_mid (spend (size_of bytes len)) _ c0 _ _ E') as N.
  do 2 eexists. split; [reflexivity|]. split; [exact N|].
  destruct (Nat.leb_spec c0 k) as [L|L].
  - pose proof (verdict_enough _ _ _ _ _ V L E'). cbn [b_rate b_burst b_level spend refill] in *. repeat split; auto.
    destruct (_ <=? k); lia.
  - destruct (Nat.leb_spec (Nat.max pre c0) k); [lia|]. cbn [b_rate b_burst b_level spend refill]. repeat split; auto. lia.
Qed.

Lemma window_bound win : forall outs bs t s' t' k b, mtspec_run acc gt bytes nrates (SOn bs) t win outs s' t' ->
  Forall traffic win -> mtops_ok acc horizon t win -> nth_error bs k = Some b ->
  (t <= last_time t win)%N /\
  exists bs' b', s' = SOn bs' /\ nth_error bs' k = Some b' /\ b_rate b' = b_rate b /\ b_burst b' = b_burst b /\
  (passed bytes k win outs + b_level b' <= b_level b + (acc (b_rate b) (last_time t win) - acc (b_rate b) t))%N.
Proof.
  induction win as [|o win IH]; intros outs bs t s' t' k b R F OK E; inversion R as [|? ? ? x s1 t1 ? xs ? ? S1 R1]; subst.
  - cbn. split; [lia|]. exists bs, b. repeat split; auto. lia.
  - inversion F as [|? ? TR F']; subst. destruct o as [| |len pre u|]; try contradiction; cbn [mtops_ok last_time] in *.
    + destruct OK as [[O1 O2] O3].
      assert (X : t1 = u /\ exists c, x = MtColor c) by (inversion S1; subst; eauto). destruct X as [-> [c ->]].
      destruct (exec_bound _ _ _ _ _ _ _ _ _ S1 E) as (bs1 & b1 & -> & E1 & R2 & B2 & L2).
      destruct (IH _ _ _ _ _ _ _ R1 F' O3 E1) as (T & bs' & b' & -> & E3 & R3 & B3 & L3).
      split; [lia|]. exists bs', b'. repeat split; auto; try congruence. cbn [passed].
      rewrite R2 in L3. pose proof (MONO (b_rate b) _ _ O1). pose proof (MONO (b_rate b) _ _ T).
      cbn [refill b_level] in L2. lia.
    + assert (X : t1 = t /\ s1 = SOn bs /\ exists l, x = MtRates l) by (inversion S1; subst; try discriminate; eauto).
      destruct X as [-> [-> [l ->]]]. destruct (IH _ _ _ _ _ _ _ R1 F' OK E) as (T & X). split; auto.
Qed.

Lemma spec_run_app a : forall b outs s t s' t', mtspec_run acc gt bytes nrates s t (a ++ b) outs s' t' ->
  exists s1 t1, mtspec_run acc gt bytes nrates s t a (firstn (length a) outs) s1 t1 /\
    mtspec_run acc gt bytes nrates s1 t1 b (skipn (length a) outs) s' t'.
Proof.
  induction a as [|o a IH]; intros b outs s t s' t' H; cbn in *.
  - exists s, t. split; [constructor|auto].
  - inversion H as [|? ? ? x s1 t1 ? xs ? ? S1 R1]; subst. destruct (IH _ _ _ _ _ _ R1) as (s2 & t2 & A & B).
    exists s2, t2. cbn [firstn skipn]. split; auto. econstructor; eauto.
Qed.
Lemma spec_run_len ops : forall outs s t s' t', mtspec_run acc gt bytes nrates s t ops outs s' t' -> length outs = length ops.
Proof. induction ops; intros; inversion H; subst; cbn; auto. f_equal. eauto. Qed.
Lemma spec_time o x s t s' t' : mtspec acc gt bytes nrates s t o x s' t' -> t' = last_time t [o].
Proof. inversion 1; reflexivity. Qed.
Lemma ops_ok_app a : forall b t outs s s' t', mtspec_run acc gt bytes nrates s t a outs s' t' ->
  mtops_ok acc horizon t (a ++ b) -> mtops_ok acc horizon t a /\ mtops_ok acc horizon t' b.
Proof.
  induction a as [|o a IH]; intros b t outs s s' t' R OK; inversion R as [|? ? ? x s1 t1 ? xs ? ? S1 R1]; subst; cbn [app mtops_ok] in *; auto.
  pose proof (spec_time _ _ _ _ _ _ S1) as T. destruct o; cbn in T; subst t1.
  - destruct OK as [A B]. destruct (IH _ _ _ _ _ _ R1 B). auto.
  - destruct (IH _ _ _ _ _ _ R1 OK). auto.
  - destruct OK as [A B]. destruct (IH _ _ _ _ _ _ R1 B). auto.
  - destruct (IH _ _ _ _ _ _ R1 OK). auto.
Qed.
End Proofs.
