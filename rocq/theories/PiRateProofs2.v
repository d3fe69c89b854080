From Coq Require Import List Arith NArith ZArith Bool Lia.
From Flocq Require Import Core BinarySingleNaN.
From Verif Require Import Base MeterModel MeterSpec MeterProofs PiResModel PiRateModel PiRateSpec PiRateProofs.
Import ListNotations.
Close Scope R_scope.
Close Scope Z_scope.

Section Hist.
Variables (bytes : bool) (nrates size : nat) (horizon : N).
Hypothesis HOR : (horizon < 2 ^ 63)%N.
Notation rok := (rate_ok horizon).

Lemma tok_h n t : rok n -> (t <= horizon)%N -> exists v, tokens (rate_of n) t = Some v /\ (v < 2 ^ 51)%N /\
  (1000000 * v <= n * t + 625000)%N /\ (n * t < 1000000 * v + 1625000)%N.
Proof. intros [A B] T. apply tokens_ok; try lia. eapply N.le_trans; [|exact B]. apply N.mul_le_mono_l. auto. Qed.
Lemma tot_h n t : rok n -> (t <= horizon)%N -> (tokens_tot (rate_of n) t < 2 ^ 63)%N /\
  (1000000 * tokens_tot (rate_of n) t <= n * t + 625000)%N /\ (n * t < 1000000 * tokens_tot (rate_of n) t + 1625000)%N.
Proof.
  intros A T. destruct (tok_h n t A T) as (v & E & V & X). unfold tokens_tot.
  destruct (N.ltb_spec t (2 ^ 63)); [|lia]. rewrite E. split; [lia|exact X].
Qed.

Lemma default_ones s : is_default s = true <-> s = all_ones.
Proof.
  unfold is_default, all_ones, max64, max32. destruct s as [a b c d]. cbn [ms_cir ms_cb ms_pir ms_pb].
  rewrite !andb_true_iff, !N.eqb_eq. split; [intros (((-> & ->) & ->) & ->); reflexivity|intros [= -> -> -> ->]; auto].
Qed.

Definition known (r : option dbl) : Prop := r = None \/ exists n, rok n /\ r = Some (rate_of n).
Definition pair_of (b : bucket dbl) : dbl * N := (b_rate b, b_burst b).
Definition cfg_of (s : mspec) : list (dbl * N) := [(rate_of (ms_cir s), ms_cb s); (rate_of (ms_pir s), ms_pb s)].
Definition MI (m : meter dbl) (w : pst) (t : N) : Prop :=
  exists s t0, (t0 <= t)%N /\ MR tokens_tot bytes nrates horizon m s t0 /\
    Forall (fun r => known (mt_rate r)) (mt_rates m) /\
    match w with
    | POff => s = SOff
    | POn sp => nrates = 2 /\ (exists bs, s = SOn bs /\ map pair_of bs = cfg_of sp) /\
                rok (ms_cir sp) /\ rok (ms_pir sp) /\ (ms_cb sp < 2 ^ 32)%N /\ (ms_pb sp < 2 ^ 32)%N
    | PUnknown => nrates = 2 /\ s = SUnknown
    end.
Definition MIs (ms : list (meter dbl)) (w : nat -> pst) (t : N) : Prop :=
  length ms = size /\ forall i m, nth_error ms i = Some m -> MI m (w i) t.

Lemma MI_le m w t t' : MI m w t -> (t <= t')%N -> MI m w t'.
Proof. intros (s & t0 & A & B) L. exists s, t0. split; [lia|auto]. Qed.
Lemma MIs_upd ms w t t' i m x : MIs ms w t -> (t <= t')%N -> i < size -> MI m x t' -> MIs (list_set ms i m) (upd w i x) t'.
Proof.
  intros [L F] T I M. split; [rewrite list_set_length; auto|]. intros j m' E. unfold upd.
  destruct (Nat.eqb_spec j i) as [->|N].
  - rewrite nth_error_list_set_eq in E by lia. injection E as <-. auto.
  - rewrite nth_error_list_set_neq in E by auto. eapply MI_le; [apply F; auto|auto].
Qed.
Lemma MIs_same ms w t t' i m : MIs ms w t -> (t <= t')%N -> MI m (w i) t' -> MIs (list_set ms i m) w t'.
Proof.
  intros [L F] T M. split; [rewrite list_set_length; auto|]. intros j m' E.
  destruct (Nat.eq_dec j i) as [->|N].
  - assert (i < length ms). { rewrite <- (list_set_length ms i m). apply nth_error_Some. congruence. }
    rewrite nth_error_list_set_eq in E by lia. injection E as <-. auto.
  - rewrite nth_error_list_set_neq in E by auto. eapply MI_le; [apply F; auto|auto].
Qed.

Lemma MIs_new : MIs (pm_new bytes nrates size) (fun _ => POff) 0.
Proof.
  unfold pm_new. split; [apply repeat_length|]. intros i m E. apply nth_error_In, repeat_spec in E. subst m.
  exists SOff, 0%N. split; [lia|]. split; [apply MR_new; apply tokens_mono|]. split; auto.
  apply Forall_forall. intros r H. apply repeat_spec in H. subst r. left. reflexivity.
Qed.

Lemma set_known m c1 b1 c2 b2 m' c : known (Some c1) -> known (Some c2) -> Forall (fun r => known (mt_rate r)) (mt_rates m) ->
  mt_set_rates d_gt m [(c1, b1); (c2, b2)] = (m', c) -> Forall (fun r => known (mt_rate r)) (mt_rates m').
Proof.
  intros K1 K2 F. unfold mt_set_rates. destruct (mt_rates m) as [|x [|y [|z l]]] eqn:E; cbn [length Nat.eqb negb].
  1,2,4: intros [= <- <-]; rewrite E; auto.
  cbn [set_loop set_rate list_set fst snd nth_error]. destruct (d_gt c1 c2).
  - intros [= <- <-]. cbn [mt_rates]. auto.
  - intros [= <- <-]. cbn. auto.
Qed.
Lemma ex_known acc n t rs : forall rs' c, ex_loop acc n t rs = Some (rs', c) -> map (@mt_rate dbl) rs' = map (@mt_rate dbl) rs.
Proof.
  induction rs as [|r rs IH]; intros rs' c; cbn [ex_loop]; [intros [= <- <-]; auto|].
  destruct (_ <? _)%N; [discriminate|]. destruct (_ <? n)%N.
  - intros [= <- <-]. reflexivity.
  - destruct (ex_loop acc n t rs) as [[rs1 c1]|] eqn:E; [|discriminate]. intros [= <- <-]. cbn. f_equal. eauto.
Qed.
Lemma exec_known m len pre t m' c : mt_execute tokens_tot m len pre t = Some (m', c) ->
  map (@mt_rate dbl) (mt_rates m') = map (@mt_rate dbl) (mt_rates m).
Proof.
  unfold mt_execute. destruct (negb _); [intros [= <- <-]; auto|].
  destruct (ex_loop _ _ _ _) as [[rs c1]|] eqn:E; [|discriminate]. intros [= <- <-]. cbn. eapply ex_known; eauto.
Qed.
Lemma Forall_mapped {A B} (f : A -> B) (P : B -> Prop) l l' : map f l' = map f l -> Forall (fun x => P (f x)) l -> Forall (fun x => P (f x)) l'.
Proof. intros E H. apply Forall_map. rewrite E. apply Forall_map. auto. Qed.

Lemma back_known r : known r -> exists n, rate_back r = Some n.
Proof.
  intros [->|(n & [A B] & ->)]; [exists 0%N; reflexivity|]. destruct (back_ok n ltac:(lia)) as (v & E & _). eauto.
Qed.

Lemma buckets_map t t' n c bs : map pair_of (firstn c (map (refill tokens_tot t t') bs) ++ map (spend n) (skipn c (map (refill tokens_tot t t') bs))) = map pair_of bs.
Proof.
  rewrite map_app, map_map. set (l := map _ bs).
  change (map pair_of (firstn c l) ++ map pair_of (skipn c l) = map pair_of bs).
  rewrite <- map_app, firstn_skipn. unfold l. rewrite map_map. reflexivity.
Qed.

Ltac PT := intros ?r0 ?Hr0; cbn [pops_ok] in *; tauto.
Lemma step_ok ms w t o : MIs ms w t -> pops_ok size horizon t [o] ->
  exists ms' x w' t', pm_step ms o = Some (ms', x) /\ pspec nrates size w o x w' /\ MIs ms' w' t' /\
    (forall r, pops_ok size horizon t (o :: r) -> pops_ok size horizon t' r).
Proof.
  intros I OK. destruct o as [i s|i|i len pre t']; cbn [pm_step pops_ok] in *.
  - destruct OK as [OK _]. destruct (nth_error ms i) as [m|] eqn:E.
    2:{ exists ms, (PCode PBadIndex), w, t. split; auto. split; [|split; [auto|PT]]. apply ps_index_set. destruct I as [<- _]. apply nth_error_None. auto. }
    assert (LT : i < size) by (destruct I as [<- _]; apply nth_error_Some; congruence).
    pose proof (proj2 I i m E) as (q & t0 & T0 & MRm & KN & ST). unfold from_spec. destruct (is_default s) eqn:D.
    + apply default_ones in D. subst s. eexists _, _, _, t. split; [reflexivity|]. split; [apply ps_none; auto|]. split; [|PT].
      apply MIs_upd with (t := t); auto; [lia|]. exists SOff, t0. split; auto. split; [|split; auto].
      destruct MRm as (A & B & C & _). unfold MR, mt_reset. cbn. auto.
    + assert (D' : s <> all_ones) by (intros X; apply default_ones in X; congruence).
      destruct OK as [|(R1 & R2 & B1 & B2)]; [contradiction|].
      destruct (tot_h _ horizon R1 (N.le_refl _)) as [Q1 _]. destruct (tot_h _ horizon R2 (N.le_refl _)) as [Q2 _].
      destruct (set_ok tokens_tot d_gt bytes nrates horizon m q t0 (cfg_of s) MRm) as (m' & c & q' & S1 & S2 & S3).
      { unfold cfg_of. repeat (apply Forall_cons; [cbn [fst snd]; lia|]). constructor. }
      fold (cfg_of s). assert (CC : cfg_of s = [(rate_of (ms_cir s), ms_cb s); (rate_of (ms_pir s), ms_pb s)]) by reflexivity.
      rewrite S1. change (match cfg_of s with [] => Some (list_set ms i (mt_reset m), PCode POk) | _ :: _ => Some (list_set ms i m', PCode (p_code c)) end) with (Some (list_set ms i m', PCode (p_code c))).
      assert (KN' : Forall (fun r => known (mt_rate r)) (mt_rates m')).
      { rewrite CC in S1. eapply set_known; [| |exact KN|exact S1]; right; eauto. }
      assert (GT : d_gt (rate_of (ms_cir s)) (rate_of (ms_pir s)) = (ms_pir s <? ms_cir s)%N).
      { destruct R1 as [R1 _], R2 as [R2 _]. destruct (N.ltb_spec (ms_pir s) (ms_cir s)); [apply rate_lt; auto|apply rate_le; lia]. }
      inversion S2 as [cf LN|cf LN NS|cf LN SS| | | | | | |]; subst; cbn [p_code].
      * eexists _, _, _, t. split; [reflexivity|]. split; [apply ps_list; auto; intros X; apply LN; rewrite X; reflexivity|]. split; [|PT].
        apply MIs_same with (t := t); auto; [lia|]. exists q', t0. auto.
      * eexists _, _, _, t. split; [reflexivity|]. split; [apply ps_order; auto|].
        { apply N.ltb_lt. rewrite <- GT. destruct (d_gt _ _) eqn:G; auto. exfalso. apply NS.
          intros [|[|j]] a b X Y; cbn in X, Y; try discriminate. injection X as <-. injection Y as <-. exact G. }
        split; [|PT]. apply MIs_upd with (t := t); auto; [lia|]. eexists _, t0. split; auto. split; [exact S3|]. split; auto.
        destruct (w i); [subst; auto| |]; (split; [auto|]).
        -- destruct ST as (_ & (bs & -> & _) & _). reflexivity.
        -- destruct ST as [_ ->]. reflexivity.
      * eexists _, _, _, t. split; [reflexivity|]. split; [apply ps_set; auto|].
        { apply N.ltb_ge. rewrite <- GT. apply (SS 0 _ _ eq_refl eq_refl). }
        split; [|PT]. apply MIs_upd with (t := t); auto; [lia|]. eexists _, t0. split; auto. split; [exact S3|]. split; auto.
        split; auto. split; [eexists; split; [reflexivity|reflexivity]|]. auto.
  - destruct (nth_error ms i) as [m|] eqn:E.
    2:{ exists ms, (PCode PBadIndex), w, t. split; auto. split; [|split; [auto|PT]]. apply ps_index_read. destruct I as [<- _]. apply nth_error_None. auto. }
    assert (LT : i < size) by (destruct I as [<- _]; apply nth_error_Some; congruence).
    pose proof (proj2 I i m E) as (q & t0 & T0 & MRm & KN & ST). unfold mt_get_rates.
    assert (Z : exists s', spec_back (if mt_conf m then rev (map (fun r => (mt_rate r, mt_burst r)) (mt_rates m)) else []) = Some s' /\
                pspec nrates size w (PRead i) (PSpec s') w).
    { destruct MRm as (A & B & C & M). destruct (w i) as [|sp|] eqn:W.
      - subst q. rewrite M. eexists. split; [reflexivity|]. apply ps_read_off; auto.
      - destruct ST as (N2 & (bs & -> & BS) & R1 & R2 & B1 & B2). destruct M as [-> RLs].
        rewrite (RL_get _ _ _ _ _ RLs). destruct bs as [|b0 [|b1 [|b2 bs]]]; try discriminate BS.
        unfold cfg_of, pair_of in BS. cbn [map] in BS. injection BS as E1 E2 E3 E4. cbn [map spec_back]. rewrite E1, E2, E3, E4.
        destruct R1 as [R1 _], R2 as [R2 _].
        destruct (back_ok (ms_cir sp) ltac:(lia)) as (v & -> & V1 & V2 & V3). destruct (back_ok (ms_pir sp) ltac:(lia)) as (v' & -> & V1' & V2' & V3').
        eexists. split; [reflexivity|]. eapply ps_read; eauto. unfold about. cbn [ms_cir ms_cb ms_pir ms_pb].
        rewrite !N.mod_small by auto. repeat split; lia.
      - destruct ST as [N2 ->]. rewrite M. rewrite N2 in B. destruct (mt_rates m) as [|x [|y [|z l]]]; try discriminate B.
        inversion KN as [|? ? K1 KN1]; subst. inversion KN1 as [|? ? K2 KN2]; subst.
        destruct (back_known _ K1) as (v1 & V1). destruct (back_known _ K2) as (v2 & V2).
        cbn [map rev app spec_back]. rewrite V1, V2. eexists. split; [reflexivity|]. apply ps_read_unknown; auto. }
    destruct Z as (s' & -> & Z). eexists _, _, _, t. split; [reflexivity|]. split; [exact Z|]. split; [exact I|]. PT.
  - destruct OK as (LT & TT & _). destruct (nth_error ms i) as [m|] eqn:E.
    2:{ apply nth_error_None in E. destruct I as [L _]. lia. }
    pose proof (proj2 I i m E) as (q & t0 & T0 & MRm & KN & ST).
    assert (CO : forallb (cast_ok t') (mt_rates m) = true).
    { apply forallb_forall. intros r IN. eapply Forall_forall in KN; [|exact IN]. unfold cast_ok. destruct KN as [->|(n & R & ->)]; auto.
      destruct (tok_h n t' R ltac:(lia)) as (v & -> & _). reflexivity. }
    rewrite CO. cbn [negb]. rewrite andb_false_r.
    destruct (exec_ok tokens_tot d_gt bytes nrates horizon tokens_mono m q t0 len pre t' MRm ltac:(lia) ltac:(lia)) as (m' & c & q' & X1 & X2 & X3).
    rewrite X1.
    assert (KN' : Forall (fun r => known (mt_rate r)) (mt_rates m')) by (eapply Forall_mapped; [eapply exec_known; eauto|exact KN]).
    exists (list_set ms i m'), (PColor c), w, t'. split; [reflexivity|]. split; [|split; [|PT]].
    + destruct (w i) as [|sp|] eqn:W.
      * subst q. inversion X2; subst; try discriminate. apply ps_pkt_off; auto.
      * destruct ST as (N2 & (bs & -> & BS) & R). inversion X2 as [| | | | |? ? ? bs0 c0 EQ V| | | |]; subst; try discriminate. eapply ps_pkt; eauto.
        apply verdict_le in V. injection EQ as <-. rewrite map_length, <- (map_length pair_of), BS in V. cbn [length cfg_of] in V. lia.
      * destruct ST as [N2 ->]. inversion X2; subst; try discriminate. apply ps_pkt_unknown; auto.
    + apply MIs_same with (t := t); auto; [lia|]. exists q', t'. split; [lia|]. split; auto. split; auto. destruct (w i) as [|sp|].
      * subst q. inversion X2; subst; auto; discriminate.
      * destruct ST as (N2 & (bs & -> & BS) & R). inversion X2 as [| | | | |? ? ? bs0 c0 EQ V| | | |]; subst; try discriminate. split; auto. split; auto.
        eexists. split; [reflexivity|]. injection EQ as <-. rewrite buckets_map. auto.
      * destruct ST as [N2 ->]. inversion X2; subst; auto; discriminate.
Qed.

Lemma pops_one t o r : pops_ok size horizon t (o :: r) -> pops_ok size horizon t [o].
Proof. destruct o; cbn; tauto. Qed.
Theorem run_ok ops : forall ms w t, MIs ms w t -> pops_ok size horizon t ops ->
  exists ms' outs w', pm_run ms ops = Some (ms', outs) /\ pspec_run nrates size w ops outs w'.
Proof.
  induction ops as [|o ops IH]; intros ms w t I OK; cbn [pm_run].
  - exists ms, [], w. split; auto. constructor.
  - destruct (step_ok ms w t o I (pops_one _ _ _ OK)) as (ms' & x & w' & t' & -> & S1 & S2 & S3).
    destruct (IH ms' w' t' S2 (S3 _ OK)) as (ms'' & xs & w'' & -> & R). do 3 eexists. split; [reflexivity|]. econstructor; eauto.
Qed.

(** * One meter of the array *)
Definition proj (i : nat) (o : pop) : list (mtop dbl) :=
  match o with
  | PSet j s => if Nat.eqb j i then (if is_default s then [MtReset] else [MtSet (cfg_of s)]) else []
  | PRead j => []
  | PPkt j len pre t => if Nat.eqb j i then [MtExec len pre t] else []
  end.
Definition projs (i : nat) (ops : list pop) : list (mtop dbl) := flat_map (proj i) ops.

(** What the projections of the outputs say *)
Inductive outs_of (i : nat) : list pop -> list pout -> list (mtout dbl) -> Prop :=
| oo_nil : outs_of i [] [] []
| oo_skip : forall o x os xs ys, proj i o = [] -> outs_of i os xs ys -> outs_of i (o :: os) (x :: xs) ys
| oo_code : forall s c os xs ys, outs_of i os xs ys -> outs_of i (PSet i s :: os) (PCode (p_code c) :: xs) (MtCode c :: ys)
| oo_col : forall len pre t c os xs ys, outs_of i os xs ys ->
    outs_of i (PPkt i len pre t :: os) (PColor c :: xs) (MtColor c :: ys).

Lemma run_proj i ops : forall ms ms' outs m, pm_run ms ops = Some (ms', outs) -> nth_error ms i = Some m ->
  exists m' ys, nth_error ms' i = Some m' /\ mt_run tokens_tot d_gt m (projs i ops) = Some (m', ys) /\ outs_of i ops outs ys.
Proof.
  induction ops as [|o ops IH]; intros ms ms' outs m R E; cbn [pm_run] in R.
  - injection R as <- <-. exists m, []. split; auto. split; [reflexivity|constructor].
  - destruct (pm_step ms o) as [[ms1 x]|] eqn:S; [|discriminate]. destruct (pm_run ms1 ops) as [[ms2 xs]|] eqn:R2; [|discriminate]. injection R as <- <-.
    assert (LT : i < length ms) by (apply nth_error_Some; congruence).
    unfold projs. cbn [flat_map]. fold (projs i ops).
    destruct o as [j s|j|j len pre t]; cbn [pm_step] in S.
    + destruct (Nat.eqb_spec j i) as [->|NE].
      * rewrite E in S. cbn [proj]. rewrite Nat.eqb_refl. unfold from_spec in S. destruct (is_default s) eqn:D.
        -- injection S as <- <-. destruct (IH _ _ _ (mt_reset m) R2) as (m' & ys & A & B & C); [apply nth_error_list_set_eq; auto|].
           exists m', (MtCode MtOk :: ys). split; auto. cbn [app mt_run mt_step]. rewrite B. split; auto. apply (oo_code i s MtOk). auto.
        -- fold (cfg_of s) in S. destruct (mt_set_rates d_gt m (cfg_of s)) as [m1 c] eqn:MS. cbn [cfg_of] in S. injection S as <- <-.
           destruct (IH _ _ _ m1 R2) as (m' & ys & A & B & C); [apply nth_error_list_set_eq; auto|].
           exists m', (MtCode c :: ys). split; auto. cbn [app mt_run mt_step]. rewrite MS, B. split; auto. apply oo_code. auto.
      * assert (E1 : nth_error ms1 i = Some m).
        { destruct (nth_error ms j) as [mj|]; [|injection S as <- <-; auto].
          destruct (from_spec rate_of s) as [|r0 rs]; [injection S as <- <-; rewrite nth_error_list_set_neq; auto|].
          destruct (mt_set_rates d_gt mj (r0 :: rs)) as [m1 c]. injection S as <- <-. rewrite nth_error_list_set_neq; auto. }
        destruct (IH _ _ _ m R2 E1) as (m' & ys & A & B & C). exists m', ys. split; auto.
        assert (P : proj i (PSet j s) = []) by (cbn [proj]; apply Nat.eqb_neq in NE; rewrite NE; reflexivity).
        rewrite P. split; auto. apply oo_skip; auto.
    + assert (E1 : ms1 = ms).
      { destruct (nth_error ms j) as [mj|]; [|injection S as <- <-; auto].
        destruct (spec_back _); [|discriminate]. injection S as <- <-. auto. }
      subst ms1. destruct (IH _ _ _ m R2 E) as (m' & ys & A & B & C). exists m', ys. split; auto. split; auto. apply oo_skip; auto.
    + destruct (nth_error ms j) as [mj|] eqn:EJ; [|discriminate]. destruct (_ && _); [discriminate|].
      destruct (mt_execute tokens_tot mj len pre t) as [[m1 c]|] eqn:X; [|discriminate]. injection S as <- <-.
      destruct (Nat.eqb_spec j i) as [->|NE].
      * rewrite E in EJ. injection EJ as <-. destruct (IH _ _ _ m1 R2) as (m' & ys & A & B & C); [apply nth_error_list_set_eq; auto|].
        exists m', (MtColor c :: ys). split; auto. cbn [proj]. rewrite Nat.eqb_refl. cbn [app mt_run mt_step]. rewrite X, B. split; auto. apply oo_col. auto.
      * destruct (IH _ _ _ m R2) as (m' & ys & A & B & C); [rewrite nth_error_list_set_neq; auto|].
        assert (P : proj i (PPkt j len pre t) = []) by (cbn [proj]; apply Nat.eqb_neq in NE; rewrite NE; reflexivity).
        exists m', ys. rewrite P. split; auto. split; auto. apply oo_skip; auto.
Qed.

Lemma outs_app i a : forall b outs ys, outs_of i (a ++ b) outs ys ->
  exists o1 o2 y1 y2, outs = o1 ++ o2 /\ ys = y1 ++ y2 /\ length o1 = length a /\ length y1 = length (projs i a) /\ outs_of i a o1 y1 /\ outs_of i b o2 y2.
Proof.
  induction a as [|o a IH]; intros b outs ys H.
  - exists [], outs, [], ys. repeat (split; auto). constructor.
  - cbn [app] in H. unfold projs. cbn [flat_map]. fold (projs i a). inversion H; subst;
      match goal with K : outs_of i (a ++ b) _ _ |- _ => destruct (IH _ _ _ K) as (o1 & o2 & y1 & y2 & -> & -> & L1 & L2 & A & B) end.
    + match goal with P : proj i o = [] |- _ => rewrite P end. exists (x :: o1), o2, y1, y2. repeat (split; auto); [cbn; lia|]. apply oo_skip; auto.
    + exists (PCode (p_code c) :: o1), o2, (MtCode c :: y1), y2. repeat (split; auto); [cbn; lia| |first [apply oo_code|apply oo_col]; auto].
      cbn [proj]. rewrite Nat.eqb_refl. destruct (is_default s); cbn; lia.
    + exists (PColor c :: o1), o2, (MtColor c :: y1), y2. repeat (split; auto); [cbn; lia| |first [apply oo_code|apply oo_col]; auto].
      cbn [proj]. rewrite Nat.eqb_refl. cbn. lia.
Qed.

Lemma passed_proj i k ops outs ys : Forall (not_set i) ops -> outs_of i ops outs ys ->
  passed bytes k (projs i ops) ys = p_passed bytes i k ops outs.
Proof.
  intros F H. induction H as [|o x os xs ys P H IH|s c os xs ys H IH|len pre t c os xs ys H IH]; [reflexivity| | |];
    inversion F as [|? ? F1 F2]; subst; unfold projs; cbn [flat_map]; fold (projs i os).
  - rewrite P. cbn [app]. rewrite (IH F2). destruct o as [j s|j|j len pre t]; cbn [p_passed]; auto.
    cbn [proj] in P. destruct (Nat.eqb j i); [discriminate|]. destruct x; auto.
  - destruct F1. reflexivity.
  - cbn [proj]. rewrite Nat.eqb_refl. cbn [app passed p_passed]. rewrite (IH F2), Nat.eqb_refl. cbn [andb]. reflexivity.
Qed.
Lemma last_proj i ops : Forall (not_set i) ops -> forall t, last_time t (projs i ops) = p_last i t ops.
Proof.
  induction 1 as [|o ops F1 F2 IH]; intros t; [reflexivity|]. unfold projs. cbn [flat_map]. fold (projs i ops).
  destruct o as [j s|j|j len pre t']; cbn [proj p_last not_set] in *; auto.
  - apply Nat.eqb_neq in F1. rewrite F1. apply IH.
  - destruct (Nat.eqb j i); cbn [app last_time]; apply IH.
Qed.
Lemma traffic_proj i ops : Forall (not_set i) ops -> Forall (@traffic dbl) (projs i ops).
Proof.
  induction 1 as [|o ops F1 F2 IH]; [constructor|]. unfold projs. cbn [flat_map]. fold (projs i ops). apply Forall_app. split; auto.
  destruct o as [j s|j|j len pre t']; cbn [proj not_set] in *; auto.
  - apply Nat.eqb_neq in F1. rewrite F1. constructor.
  - destruct (Nat.eqb j i); constructor; cbn; auto.
Qed.
Lemma ops_proj i ops : forall t, pops_ok size horizon t ops -> forall t0, (t0 <= t)%N -> mtops_ok tokens_tot horizon t0 (projs i ops).
Proof.
  induction ops as [|o ops IH]; intros t OK t0 T; [exact I|]. unfold projs. cbn [flat_map]. fold (projs i ops).
  destruct o as [j s|j|j len pre t']; cbn [proj pops_ok] in *.
  - destruct OK as [OK1 OK2]. destruct (Nat.eqb j i); [|cbn [app]; eauto]. destruct (is_default s) eqn:D; cbn [app mtops_ok]; [eauto|].
    split; eauto. destruct OK1 as [->|(R1 & R2 & B1 & B2)]; [discriminate D|].
    destruct (tot_h _ horizon R1 (N.le_refl _)) as [Q1 _]. destruct (tot_h _ horizon R2 (N.le_refl _)) as [Q2 _].
    unfold cfg_of. repeat (apply Forall_cons; [cbn [fst snd]; lia|]). constructor.
  - cbn [app]. eauto.
  - destruct OK as (L & TT & OK2). destruct (Nat.eqb j i); cbn [app mtops_ok]; [split; [lia|]|]; eapply IH; try exact OK2; lia.
Qed.
Lemma last_ge i ops : forall t t0, pops_ok size horizon t ops -> (t0 <= t)%N -> (t0 <= horizon)%N ->
  (t0 <= p_last i t0 ops <= horizon)%N.
Proof.
  induction ops as [|o ops IH]; intros t t0 OK L H; cbn [p_last]; [lia|].
  destruct o as [j s|j|j len pre t']; cbn [pops_ok] in OK.
  - destruct OK as [_ OK]. eapply IH; eauto.
  - eapply IH; eauto.
  - destruct OK as (A & B & C). destruct (Nat.eqb j i).
    + pose proof (IH t' t' C ltac:(lia) ltac:(lia)). lia.
    + apply (IH t' t0); auto. lia.
Qed.
Lemma pops_app a : forall b t, pops_ok size horizon t (a ++ b) -> exists t', (t <= t')%N /\ pops_ok size horizon t' b.
Proof.
  induction a as [|o a IH]; intros b t OK; cbn [app] in *; [exists t; split; [lia|auto]|].
  destruct o as [j s|j|j len pre t']; cbn [pops_ok] in OK.
  - apply IH. tauto.
  - apply IH. tauto.
  - destruct OK as (A & B & C). destruct (IH _ _ C) as (t2 & D & E). exists t2. split; [lia|auto].
Qed.
End Hist.
