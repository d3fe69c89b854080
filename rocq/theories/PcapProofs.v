(** Proofs about packet capture replay. *)
From Coq Require Import List Arith NArith ZArith Bool Lia Sorted Permutation.
From Verif Require Import PcapModel PcapSpec.
Import ListNotations.

Lemma timer_lt_ok a b : timer_lt a b = true <-> before a b.
Proof. unfold timer_lt, before. destruct (Z.eqb_spec (tv_sec a) (tv_sec b)); rewrite Z.ltb_lt; lia. Qed.
Lemma timer_lt_no a b : timer_lt a b = false <-> ~ before a b.
Proof. rewrite <- timer_lt_ok. destruct (timer_lt a b); intuition congruence. Qed.
Lemma before_trans a b c : before a b -> before b c -> before a c.
Proof. unfold before. lia. Qed.
Lemma before_le a b c : before a b -> ~ before c b -> before a c.
Proof. unfold before. lia. Qed.

Definition abs (f : infile) : file :=
  (if_port f, match if_state f with
              | Reading t d => Rec t (length d) d :: if_rest f | AtEnd => [] | Opened => if_rest f end).
Definition scanning (f : infile) : Prop := if_state f <> Opened.
Definition live (f : infile) : bool := match if_state f with Reading _ _ => true | _ => false end.
Definition nlive (l : list infile) : nat := length (filter live l).

Lemma nlive_app a b : nlive (a ++ b) = nlive a + nlive b.
Proof. unfold nlive. rewrite filter_app, app_length. reflexivity. Qed.

Lemma earliest_ok files : forall i acc, Forall scanning files ->
  (earliest files i acc = Some acc /\
   forall f t, In f files -> head_time (abs f) = Some t -> match acc with None => False | Some (_, t0) => ~ before t t0 end) \/
  exists l1 f l2 t d, files = l1 ++ f :: l2 /\ earliest files i acc = Some (Some (i + length l1, t)) /\
    if_state f = Reading t d /\
    (forall g t', In g l1 -> head_time (abs g) = Some t' -> before t t') /\
    (forall g t', In g l2 -> head_time (abs g) = Some t' -> ~ before t' t) /\
    match acc with Some (_, t0) => before t t0 | None => True end.
Proof.
  induction files as [|f r IH]; intros i acc F.
  - left. split; [reflexivity|]. intros f t [].
  - inversion F as [|? ? F1 F2]; subst. unfold scanning in F1. cbn [earliest].
    destruct (if_state f) as [|t d|] eqn:Ef; [congruence| |].
    + unfold current. rewrite Ef.
      assert (Hf : head_time (abs f) = Some t) by (unfold head_time, abs; rewrite Ef; reflexivity).
      destruct (match acc with None => true | Some (_, t0) => timer_lt t t0 end) eqn:B.
      * assert (E : match acc with None => Some (i, t) | Some (j, t0) => if timer_lt t t0 then Some (i, t) else Some (j, t0) end = Some (i, t))
          by (destruct acc as [[j t0]|]; [rewrite B|]; reflexivity).
        rewrite E. right. destruct (IH (S i) (Some (i, t)) F2) as [(E1 & H)|(l1 & g & l2 & t1 & d1 & -> & E1 & Sg & A1 & A2 & A3)].
        -- exists [], f, r, t, d. split; [reflexivity|]. split; [rewrite E1, Nat.add_0_r; reflexivity|]. split; [exact Ef|].
           split; [intros g t' []|]. split; [intros g t' I Hg; exact (H _ _ I Hg)|].
           destruct acc as [[j t0]|]; [apply timer_lt_ok; exact B|exact I].
        -- exists (f :: l1), g, l2, t1, d1. split; [reflexivity|]. split; [rewrite E1; cbn; do 3 f_equal; lia|]. split; [exact Sg|].
           split; [|split; [exact A2|]].
           ++ intros h t' [<-|I] Hh; [|eauto]. rewrite Hf in Hh. injection Hh as <-. exact A3.
           ++ destruct acc as [[j t0]|]; [|exact I]. apply timer_lt_ok in B. eauto using before_trans.
      * destruct acc as [[j t0]|]; [|discriminate]. rewrite B. apply timer_lt_no in B.
        destruct (IH (S i) (Some (j, t0)) F2) as [(E1 & H)|(l1 & g & l2 & t1 & d1 & -> & E1 & Sg & A1 & A2 & A3)].
        -- left. split; [exact E1|]. intros g t' [<-|I] Hg; [|exact (H _ _ I Hg)]. rewrite Hf in Hg. injection Hg as <-. exact B.
        -- right. exists (f :: l1), g, l2, t1, d1. split; [reflexivity|]. split; [rewrite E1; cbn; do 3 f_equal; lia|]. split; [exact Sg|].
           split; [|split; [exact A2|exact A3]].
           intros h t' [<-|I] Hh; [|eauto]. rewrite Hf in Hh. injection Hh as <-. eauto using before_le.
    + assert (Hf : head_time (abs f) = None) by (unfold head_time, abs; rewrite Ef; reflexivity).
      destruct (IH (S i) acc F2) as [(E1 & H)|(l1 & g & l2 & t1 & d1 & -> & E1 & Sg & A1 & A2 & A3)].
      * left. split; [exact E1|]. intros g t' [<-|I] Hg; [congruence|exact (H _ _ I Hg)].
      * right. exists (f :: l1), g, l2, t1, d1. split; [reflexivity|]. split; [rewrite E1; cbn; do 3 f_equal; lia|]. split; [exact Sg|].
        split; [|split; [exact A2|exact A3]]. intros h t' [<-|I] Hh; [congruence|eauto].
Qed.

Lemma scanning_not_bad f : scanning f -> ~ bad_head (abs f).
Proof. unfold scanning, bad_head, abs. destruct (if_state f); cbn; intuition. Qed.
Lemma no_bad l : Forall scanning l -> ~ Exists bad_head (map abs l).
Proof.
  intros F E. apply Exists_exists in E as (x & I & B). apply in_map_iff in I as (f & <- & I).
  rewrite Forall_forall in F. exact (scanning_not_bad f (F _ I) B).
Qed.
Lemma fset_mid l1 f l2 g : fset (l1 ++ f :: l2) (length l1) g = l1 ++ g :: l2.
Proof. induction l1; cbn; congruence. Qed.
Lemma nth_mid {A} (l1 : list A) f l2 : nth_error (l1 ++ f :: l2) (length l1) = Some f.
Proof. induction l1; cbn; auto. Qed.

Lemma advance_ok f : match advance f with
  | None => bad_head (if_port f, if_rest f)
  | Some (f', ok) => abs f' = (if_port f, if_rest f) /\ scanning f' /\ live f' = ok
  end.
Proof.
  unfold advance, bad_head, abs, scanning, live. cbn. destruct (if_rest f) as [|[t len d|] r] eqn:E; cbn.
  - repeat split. discriminate.
  - destruct (Nat.eqb_spec (length d) len) as [<-|N]; cbn; [|congruence]. repeat split. discriminate.
  - auto.
Qed.

(** how much is left *)
Definition left_in (f : infile) : nat :=
  match if_state f with Reading _ _ => S (length (if_rest f)) | AtEnd => 0 | Opened => length (if_rest f) end.
Definition todo (l : list infile) : nat := list_sum (map left_in l).
Lemma todo_app a b : todo (a ++ b) = todo a + todo b.
Proof. unfold todo. rewrite map_app, list_sum_app. reflexivity. Qed.

Definition delay_us (respect : bool) (first start now t : tv) : Z :=
  if respect then Z.max 0 (us t - us first - (us now - us start))%Z else 0%Z.

Lemma timersub_ok a b : tv_ok a -> tv_ok b -> tv_ok (timersub a b) /\ us (timersub a b) = (us a - us b)%Z.
Proof.
  unfold tv_ok, timersub, us. intros A B. destruct (Z.ltb_spec (tv_usec a - tv_usec b) 0); cbn; lia.
Qed.
Lemma sleep_ok d : tv_ok d -> match sleep_for d with None => 0%Z | Some d => us d end = Z.max 0 (us d).
Proof.
  unfold tv_ok, sleep_for, timer_le, us. cbn [tv_sec tv_usec]. intros A. destruct (Z.eqb_spec (tv_sec d) 0) as [E|E].
  - destruct (Z.leb_spec (tv_usec d) 0); lia.
  - destruct (Z.leb_spec (tv_sec d) 0); lia.
Qed.

Lemma scan_ok fuel respect first start clock : forall k files,
  Forall scanning files -> todo files < fuel ->
  exists gs o out ok, scan fuel respect first start clock (fun _ => []) k files (nlive files) = (gs, o) /\
    replay (map abs files) out ok /\ o = (if ok then Finished else Exited) /\
    map (fun g => (g_port g, g_data g)) gs = map (fun x => (fst x, snd (snd x))) out /\
    Forall (fun x => exists f, In f files /\ exists len, In (Rec (fst (snd x)) len (snd (snd x))) (snd (abs f))) out /\
    ((respect = false \/ (tv_ok first /\ tv_ok start /\ (forall i, tv_ok (clock i)) /\ Forall (fun x => tv_ok (fst (snd x))) out)) ->
     forall i x g, nth_error out i = Some x -> nth_error gs i = Some g ->
       slept g = delay_us respect first start (clock (k + i)) (fst (snd x))).
Proof.
  induction fuel as [|fuel IH]; intros k files F L; [lia|]. cbn [scan]. rewrite app_nil_r.
  destruct (Nat.eqb_spec (nlive files) 0) as [Z|Z].
  - exists [], Finished, [], true. split; [reflexivity|]. split.
    { apply rp_done. apply Forall_forall. intros x I. apply in_map_iff in I as (f & <- & I).
      rewrite Forall_forall in F. specialize (F _ I). unfold nlive in Z. apply length_zero_iff_nil in Z.
      unfold abs. cbn. destruct (if_state f) as [|t d|] eqn:Ef; [congruence| |reflexivity].
      assert (J : In f (filter live files)) by (apply filter_In; split; auto; unfold live; rewrite Ef; reflexivity).
      rewrite Z in J. destruct J. }
    repeat split; auto. intros _ i x g H. destruct i; discriminate.
  - destruct (earliest_ok files 0 None F) as [(_ & H)|(l1 & f & l2 & t & d & Ef & Ee & Sf & A1 & A2 & _)].
    { exfalso. destruct (filter live files) as [|f l] eqn:E; [unfold nlive in Z; rewrite E in Z; cbn in Z; lia|].
      assert (J : In f (filter live files)) by (rewrite E; cbn; auto). apply filter_In in J as [J Lf].
      unfold live in Lf. destruct (if_state f) as [|t d|] eqn:Sf; try discriminate.
      apply (H f t J). unfold head_time, abs. rewrite Sf. reflexivity. }
    rewrite Ee. cbn [Nat.add]. rewrite Ef, nth_mid. unfold current. rewrite Sf. unfold move_next. rewrite Sf.
    pose proof (advance_ok f) as Ad. rewrite Ef in F. pose proof F as F0. apply Forall_app in F as [Fa Fb]. inversion Fb as [|? ? Ff Fc]; subst.
    assert (Ea : abs f = (if_port f, Rec t (length d) d :: if_rest f)) by (unfold abs; rewrite Sf; reflexivity).
    assert (Sl : forall nw, (respect = false \/ (tv_ok first /\ tv_ok start /\ tv_ok nw /\ tv_ok t)) ->
       slept (mkGiven (if_port f) d (sleep_for (if respect then timersub (timersub t first) (timersub nw start) else mkTv 0 0)))
       = delay_us respect first start nw t).
    { intros nw G. unfold slept, delay_us. cbn [g_sleep]. destruct respect; [|reflexivity].
      destruct G as [G|(G1 & G2 & G3 & G4)]; [discriminate|].
      destruct (timersub_ok t first G4 G1) as [B1 B2]. destruct (timersub_ok nw start G3 G2) as [C1 C2].
      destruct (timersub_ok _ _ B1 C1) as [D1 D2]. rewrite (sleep_ok _ D1), D2, B2, C2. reflexivity. }
    assert (Nb : ~ Exists bad_head (map abs l1 ++ (if_port f, Rec t (length d) d :: if_rest f) :: map abs l2)).
    { rewrite <- Ea. change (abs f :: map abs l2) with (map abs (f :: l2)). rewrite <- map_app. apply no_bad. exact F0. }
    assert (B1 : forall h t', In h (map abs l1) -> head_time h = Some t' -> before t t').
    { intros h t' I Hh. apply in_map_iff in I as (g & <- & I). eauto. }
    assert (B2 : forall h t', In h (map abs l2) -> head_time h = Some t' -> ~ before t' t).
    { intros h t' I Hh. apply in_map_iff in I as (g & <- & I). eauto. }
    destruct (advance f) as [[f' okf]|] eqn:Eadv.
    + destruct Ad as (Af & Scf & Lf). rewrite fset_mid.
      assert (En : (if okf then nlive (l1 ++ f :: l2) else nlive (l1 ++ f :: l2) - 1) = nlive (l1 ++ f' :: l2)).
      { assert (Lr : live f = true) by (unfold live; rewrite Sf; reflexivity).
        rewrite !nlive_app. unfold nlive. cbn [filter]. rewrite Lr, Lf. destruct okf; cbn [length]; lia. }
      rewrite En.
      assert (F' : Forall scanning (l1 ++ f' :: l2)) by (apply Forall_app; split; auto).
      assert (L' : todo (l1 ++ f' :: l2) < fuel).
      { rewrite todo_app in *. unfold todo in *. cbn [map list_sum fold_right] in *.
        assert (left_in f' < left_in f); [|lia]. unfold left_in. rewrite Sf.
        assert (X : length (snd (abs f')) = length (if_rest f)) by (rewrite Af; reflexivity).
        unfold abs in X. cbn in X. destruct (if_state f'); cbn in *; lia. }
      destruct (IH (S k) _ F' L') as (gs & o & out & ok & E & R & Eo & Em & Io & P). rewrite E.
      eexists _, o, ((if_port f, (t, d)) :: out), ok. split; [reflexivity|]. split; [|split; [exact Eo|split; [|split]]].
      * rewrite map_app. cbn [map]. rewrite Ea. apply rp_next; auto. rewrite <- Af.
        change (abs f' :: map abs l2) with (map abs (f' :: l2)). rewrite <- map_app. exact R.
      * cbn [map]. rewrite Em. reflexivity.
      * constructor.
        -- exists f. split; [apply in_app_iff; cbn; auto|]. exists (length d). rewrite Ea. cbn. auto.
        -- eapply Forall_impl; [|exact Io]. intros x (g & Ig & len & Il). apply in_app_iff in Ig. cbn [In] in Ig.
           destruct Ig as [Ig|[<-|Ig]]; [exists g|exists f|exists g]; (split; [apply in_app_iff; cbn; auto|]); exists len; auto.
           rewrite Af in Il. rewrite Ea. cbn. auto.
      * intros G i x g Hx Hg. destruct i as [|i]; cbn in Hx, Hg.
        -- injection Hx as <-. injection Hg as <-. cbn [fst snd]. rewrite Nat.add_0_r. apply Sl.
           destruct G as [G|(G1 & G2 & G3 & G4)]; [auto|right]. apply Forall_inv in G4. auto.
        -- rewrite <- Nat.add_succ_comm. apply P; auto.
           destruct G as [G|(G1 & G2 & G3 & G4)]; [auto|right]. apply Forall_inv_tail in G4. auto.
    + eexists _, Exited, [(if_port f, (t, d))], false. split; [reflexivity|]. split; [|split; [reflexivity|split; [reflexivity|split]]].
      * rewrite map_app. cbn [map]. rewrite Ea. apply rp_next; auto. apply rp_bad.
        apply Exists_app. right. constructor. exact Ad.
      * repeat constructor. exists f. split; [apply in_app_iff; cbn; auto|]. exists (length d). rewrite Ea. cbn. auto.
      * intros G i x g Hx Hg. destruct i as [|[|i]]; try discriminate.
        injection Hx as <-. injection Hg as <-. cbn [fst snd]. rewrite Nat.add_0_r. apply Sl.
        destruct G as [G|(G1 & G2 & G3 & G4)]; [auto|right]. apply Forall_inv in G4. auto.
Qed.

(** ** start *)
Definition fabs (f : file) : infile := open_file (fst f) (snd f).

Definition first_le (first : option tv) (f : file) : Prop :=
  match head_time f with None => True | Some t => match first with None => False | Some t0 => ~ before t t0 end end.
Lemma start_ok fs : forall n first,
  match start_files (map fabs fs) n first with
  | None => Exists bad_head fs
  | Some (l, n', first') => map abs l = fs /\ Forall scanning l /\ n' = n + nlive l /\
      Forall (first_le first') fs /\
      match first, first' with Some t, Some t' => ~ before t t' | Some _, None => False | None, _ => True end /\
      (first' = first \/ exists f t, In f fs /\ head_time f = Some t /\ first' = Some t)
  end.
Proof.
  induction fs as [|[p l] r IH]; intros n first.
  - cbn. unfold nlive. cbn. split; [reflexivity|]. split; [constructor|]. split; [lia|]. split; [constructor|]. split; [|auto]. destruct first; auto. unfold before. lia.
  - cbn [map start_files]. unfold fabs at 1, move_next, open_file. cbn [if_state fst snd].
    pose proof (advance_ok (mkIn p Opened l)) as A. cbn [if_port if_rest] in A.
    destruct (advance (mkIn p Opened l)) as [[f' ok]|]; [|constructor; exact A].
    destruct A as (Af & Sc & Lf).
    set (fst' := if ok then match current f' with
                            | Some (t, _) => match first with None => Some t | Some t0 => if timer_lt t t0 then Some t else Some t0 end
                            | None => first end else first).
    specialize (IH (if ok then S n else n) fst').
    destruct (start_files (map fabs r) _ fst') as [[[l' n'] x]|]; [|right; exact IH].
    destruct IH as (E & F & N & FL & FF & FE).
    assert (Hd : head_time (p, l) = match current f' with Some (t, _) => Some t | None => None end).
    { rewrite <- Af. unfold head_time, abs, current. destruct (if_state f') eqn:Es; auto. exfalso. exact (Sc Es). }
    assert (Hok : ok = match current f' with Some _ => true | None => false end).
    { rewrite <- Lf. unfold live, current. destruct (if_state f'); reflexivity. }
    assert (Hf : match first, fst' with Some t, Some t' => ~ before t t' | Some _, None => False | None, _ => True end /\ first_le fst' (p, l) /\
       (fst' = first \/ exists t, head_time (p, l) = Some t /\ fst' = Some t)).
    { unfold first_le. rewrite Hd. unfold fst'. rewrite Hok. destruct (current f') as [[t d]|]; [|destruct first; repeat split; auto; unfold before; lia].
      destruct first as [t0|].
      - destruct (timer_lt t t0) eqn:B; [apply timer_lt_ok in B|apply timer_lt_no in B]; repeat split; auto;
          try (unfold before in *; lia). right. eauto.
      - repeat split; eauto. unfold before; lia. }
    destruct Hf as (H1 & H2 & H3). cbn [map]. repeat split.
    + rewrite Af, E. reflexivity.
    + constructor; auto.
    + unfold nlive in *. cbn [filter]. rewrite Lf. destruct ok; cbn [length]; lia.
    + constructor; auto. unfold first_le in *. destruct (head_time (p, l)) as [t|]; auto.
      destruct fst' as [t1|]; [|contradiction]. destruct x as [t2|]; [|contradiction]. unfold before in *. lia.
    + destruct first as [t|], fst' as [t1|], x as [t2|]; auto; try contradiction. unfold before in *. lia.
    + destruct FE as [->|(f & t & I & Hh & ->)].
      * destruct H3 as [->|(t & Hh & ->)]; [auto|]. right. exists (p, l), t. cbn; auto.
      * right. exists f, t. cbn; auto.
Qed.

Lemma todo_start fs l : map abs l = fs -> Forall scanning l -> todo l = length (concat (map snd fs)).
Proof.
  intros <- F. induction F as [|f l Sc F IH]; [reflexivity|]. unfold todo in *. cbn. rewrite app_length, <- IH. f_equal.
  unfold left_in, scanning in *. destruct (if_state f); [congruence|reflexivity|reflexivity].
Qed.

(** ** Consequences of [replay] *)
Lemma replay_perm fs out : replay fs out true -> Permutation out (flat_map packets fs).
Proof.
  remember true as ok eqn:Eo. induction 1 as [fs F|fs B|fs1 p t len d r fs2 out ok N A1 A2 R IH]; [|discriminate|].
  - replace (flat_map packets fs) with (@nil (nat * (tv * list N))); [constructor|].
    induction F as [|f fs E F IH]; [reflexivity|]. cbn. unfold packets at 1. rewrite E. exact IH.
  - specialize (IH Eo). rewrite flat_map_app in *. cbn [flat_map] in *. unfold packets at 2. cbn [snd flat_map fst].
    unfold packets at 2 in IH. cbn [snd fst] in IH. rewrite <- app_assoc, <- app_comm_cons. cbn [app].
    apply Permutation_cons_app. exact IH.
Qed.
Lemma replay_file fs out : replay fs out true -> NoDup (map fst fs) ->
  forall f, In f fs -> filter (fun x => fst x =? fst f) out = packets f.
Proof.
  remember true as ok eqn:Eo. induction 1 as [fs F|fs B|fs1 p t len d r fs2 out ok N A1 A2 R IH]; [|discriminate|]; intros Nd f I.
  - rewrite Forall_forall in F. unfold packets. rewrite (F _ I). reflexivity.
  - specialize (IH Eo). rewrite map_app in *. cbn [map fst] in *. specialize (IH Nd). cbn [filter fst].
    apply in_app_iff in I. cbn [In] in I.
    assert (K : forall g, In g fs1 \/ In g fs2 -> fst g <> p).
    { intros g Ig E. apply NoDup_remove_2 in Nd. apply Nd. rewrite <- E. apply in_app_iff.
      destruct Ig as [Ig|Ig]; [left|right]; now apply in_map. }
    destruct I as [I|[<-|I]].
    + destruct (Nat.eqb_spec p (fst f)) as [E|E]; [exfalso; exact (K f (or_introl I) (eq_sym E))|].
      apply IH. apply in_app_iff. auto.
    + cbn [fst]. rewrite Nat.eqb_refl. unfold packets. cbn [snd flat_map fst]. cbn [app]. f_equal.
      exact (IH (p, r) ltac:(apply in_app_iff; cbn; auto)).
    + destruct (Nat.eqb_spec p (fst f)) as [E|E]; [exfalso; exact (K f (or_intror I) (eq_sym E))|].
      apply IH. apply in_app_iff. cbn. auto.
Qed.

Definition in_order (f : file) : Prop :=
  StronglySorted (fun a b => ~ before (fst (snd b)) (fst (snd a))) (packets f).
Lemma replay_in fs out ok : replay fs out ok -> forall x, In x out -> exists f, In f fs /\ In x (packets f).
Proof.
  induction 1 as [fs F|fs B|fs1 p t len d r fs2 out ok N A1 A2 R IH]; intros x I; [destruct I|destruct I|].
  destruct I as [<-|I].
  - exists (p, Rec t len d :: r). split; [apply in_app_iff; cbn; auto|]. unfold packets. cbn. auto.
  - destruct (IH _ I) as (f & If & Ix). apply in_app_iff in If. cbn in If. destruct If as [If|[<-|If]].
    + exists f. split; auto. apply in_app_iff. auto.
    + exists (p, Rec t len d :: r). split; [apply in_app_iff; cbn; auto|]. unfold packets in *. cbn in *. auto.
    + exists f. split; auto. apply in_app_iff. cbn. auto.
Qed.
Lemma replay_sorted fs out ok : replay fs out ok -> Forall in_order fs ->
  StronglySorted (fun a b => ~ before (fst (snd b)) (fst (snd a))) out.
Proof.
  induction 1 as [fs F|fs B|fs1 p t len d r fs2 out ok N A1 A2 R IH]; intros Fo; [constructor|constructor|].
  pose proof Fo as Fo0. apply Forall_app in Fo as [Fa Fb]. inversion Fb as [|? ? Ff Fc]; subst.
  assert (Fr : in_order (p, r)) by (unfold in_order, packets in *; cbn in *; inversion Ff; auto).
  constructor.
  - apply IH. apply Forall_app. split; auto.
  - apply Forall_forall. intros x I. destruct (replay_in _ _ _ R x I) as (f & If & Ix). cbn [fst snd].
    assert (Hh : forall g t0 q, In g fs1 \/ In g fs2 -> In (q, t0) (packets g) -> in_order g -> exists t', head_time g = Some t' /\ ~ before (fst t0) t').
    { intros [gp gl] t0 q Ig It Og.
      assert (Nb : ~ bad_head (gp, gl)).
      { intros B. apply N. apply Exists_exists. exists (gp, gl). split; auto. apply in_app_iff. cbn. tauto. }
      destruct gl as [|[tg lg dg|] gr]; [destruct It| |cbn in Nb; tauto].
      exists tg. split; [reflexivity|]. unfold in_order, packets in *. cbn in *. inversion Og as [|? ? _ Fg]; subst.
      destruct It as [It|It]; [injection It as <- <-; cbn; unfold before; lia|]. rewrite Forall_forall in Fg. apply (Fg _ It). }
    rewrite Forall_forall in Fa, Fc. destruct x as [q [tx dx]]. cbn.
    apply in_app_iff in If. cbn in If. destruct If as [If|[<-|If]].
    + destruct (Hh f (tx, dx) q (or_introl If) Ix (Fa _ If)) as (t' & E & B). cbn in B. specialize (A1 _ _ If E). unfold before in *. lia.
    + unfold in_order, packets in Ff. cbn in Ff. inversion Ff as [|? ? _ Fg]; subst. rewrite Forall_forall in Fg.
      exact (Fg _ Ix).
    + destruct (Hh f (tx, dx) q (or_intror If) Ix (Fc _ If)) as (t' & E & B). cbn in B. specialize (A2 _ _ If E). unfold before in *. lia.
Qed.
Lemma replay_good fs out ok : replay fs out ok -> Forall (fun f => Forall good (snd f)) fs -> ok = true.
Proof.
  induction 1 as [fs F|fs B|fs1 p t len d r fs2 out ok N A1 A2 R IH]; intros G; auto.
  - exfalso. apply Exists_exists in B as (f & I & B). rewrite Forall_forall in G. specialize (G _ I).
    unfold bad_head in B. destruct (snd f); [exact B|]. apply B. apply Forall_inv in G. exact G.
  - apply IH. apply Forall_app in G as [Ga Gb]. inversion Gb as [|? ? G1 G2]; subst. apply Forall_app. split; auto.
    constructor; auto. cbn in *. inversion G1; auto.
Qed.
