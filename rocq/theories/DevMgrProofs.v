(** Proofs for C63. *)
From Coq Require Import List Arith NArith Bool Sorted Lia.
From Verif Require Import PortMonModel DevMgrModel DevMgrSpec.
Import ListNotations.

(** ** words *)
Lemma rd32_word x w rest : word x w -> rd32 (w ++ rest) 0 = Some x.
Proof. intros (a & b & c & d & -> & ? & ? & ? & ? & ->). unfold rd32. cbn [skipn app]. f_equal. change (2 ^ 24)%N with 16777216%N. change (2 ^ 16)%N with 65536%N. change (2 ^ 8)%N with 256%N. lia. Qed.
Lemma rd32_skip w off n rest : length w = off -> rd32 (w ++ rest) (off + n) = rd32 rest n.
Proof.
  intros H. unfold rd32. replace (skipn (off + n) (w ++ rest)) with (skipn n rest); auto.
  rewrite skipn_app. rewrite H. replace (off + n - off)%nat with n by lia. rewrite (skipn_all2 w) by lia. reflexivity.
Qed.
Lemma word_len x w : word x w -> length w = 4%nat.
Proof. intros (a & b & c & d & -> & _). reflexivity. Qed.
Lemma wr32_word x : (x < 2 ^ 32)%N -> word x (wr32 x).
Proof.
  intros H. unfold wr32. exists (x mod 256)%N, (x / 256 mod 256)%N, (x / 65536 mod 256)%N, (x / 16777216 mod 256)%N.
  split; auto. repeat (split; [apply N.mod_lt; lia|]).
  assert (A := N.div_mod x 256 ltac:(lia)). assert (B := N.div_mod (x / 256) 256 ltac:(lia)).
  assert (C := N.div_mod (x / 256 / 256) 256 ltac:(lia)).
  rewrite N.div_div in B, C by lia. rewrite N.div_div in C by lia. change (256 * 256)%N with 65536%N in *. change (65536 * 256)%N with 16777216%N in *.
  assert (D : (x / 16777216 < 256)%N) by (apply N.div_lt_upper_bound; cbn in *; lia).
  rewrite (N.mod_small _ _ D). change (2 ^ 24)%N with 16777216%N. change (2 ^ 16)%N with 65536%N. change (2 ^ 8)%N with 256%N.
  set (u := (x / 16777216)%N) in *. set (v := (x / 65536)%N) in *. set (w := (x / 256)%N) in *. clearbody u v w. lia.
Qed.
Lemma word_small x w : word x w -> (x < 2 ^ 32)%N.
Proof. intros (a & b & c & d & -> & ? & ? & ? & ? & ->). change (2 ^ 24)%N with 16777216%N. change (2 ^ 16)%N with 65536%N. change (2 ^ 8)%N with 256%N. change (2 ^ 32)%N with 4294967296%N. lia. Qed.
Lemma word_of_bytes a b c d : (a < 256 -> b < 256 -> c < 256 -> d < 256 -> word (a + 256 * (b + 256 * (c + 256 * d))) [a; b; c; d])%N.
Proof. intros. exists a, b, c, d. repeat (split; auto). change (2 ^ 24)%N with 16777216%N. change (2 ^ 16)%N with 65536%N. change (2 ^ 8)%N with 256%N. lia. Qed.

(** ** maps *)
Lemma pfind_perase l p q : pfind (perase l p) q = if (q =? p)%N then None else pfind l q.
Proof.
  induction l as [|[r x] l IH]; [cbn; destruct (q =? p)%N; auto|]. unfold perase in *. cbn [filter fst]. cbn [pfind].
  destruct (N.eqb_spec r p) as [E|E]; cbn [negb pfind]; rewrite IH; destruct (N.eqb_spec q p) as [E2|E2]; destruct (N.eqb_spec r q) as [E3|E3]; auto; congruence.
Qed.
Lemma pfind_pset l p b q : pfind (pset l p b) q = if (q =? p)%N then match pfind l p with Some _ => Some b | None => None end else pfind l q.
Proof.
  induction l as [|[r x] l IH]; cbn; [destruct (q =? p)%N; auto|]. destruct (N.eqb_spec r p) as [->|N1]; cbn.
  - rewrite (N.eqb_sym p q). destruct (N.eqb_spec q p); auto.
  - rewrite IH. destruct (N.eqb_spec r q) as [->|N2]; auto. rewrite (proj2 (N.eqb_neq q p)); auto.
Qed.
Lemma pfind_snoc l p b q : pfind (l ++ [(p, b)]) q = match pfind l q with Some x => Some x | None => if (q =? p)%N then Some b else None end.
Proof. induction l as [|[r x] l IH]; cbn; [rewrite N.eqb_sym; auto|]. destruct (r =? q)%N; auto. Qed.
Lemma pfind_emplace l p b q : pfind l p = None -> pfind (map_emplace l p b) q = if (q =? p)%N then Some b else pfind l q.
Proof.
  induction l as [|[r x] l IH]; cbn; intros H; [rewrite N.eqb_sym; auto|]. destruct (N.eqb_spec r p) as [->|N1]; [discriminate|]. destruct (p <? r)%N; cbn.
  - rewrite (N.eqb_sym p q). destruct (q =? p)%N; auto.
  - rewrite IH by auto. destruct (N.eqb_spec r q) as [->|N2]; auto. rewrite (proj2 (N.eqb_neq q p)); auto.
Qed.

Definition sorted (l : list (N * bool)) := StronglySorted N.lt (map fst l).
Lemma sorted_emplace l p b : sorted l -> pfind l p = None -> sorted (map_emplace l p b).
Proof.
  unfold sorted. induction l as [|[r x] l IH]; cbn; intros S H; [repeat constructor|]. inversion S as [|? ? S1 F1]; subst.
  destruct (N.eqb_spec r p) as [->|N1]; [discriminate|]. destruct (N.ltb_spec p r); cbn.
  - constructor; [constructor; auto|]. constructor; auto. eapply Forall_impl; [|exact F1]. cbn. intros. lia.
  - constructor; auto. clear - F1 N1 H0. induction l as [|[s y] l IH]; cbn; [constructor; auto; lia|]. inversion F1; subst. destruct (p <? s)%N; cbn; constructor; auto; try lia.
Qed.
Lemma sorted_erase l p : sorted l -> sorted (perase l p).
Proof.
  unfold sorted. induction l as [|[r x] l IH]; cbn; intros S; auto. inversion S as [|? ? S1 F1]; subst. destruct (r =? p)%N; cbn; auto. constructor; auto.
  rewrite Forall_forall in *. intros y IN. apply F1. apply in_map_iff in IN as ((s & z) & <- & IN). apply filter_In in IN as [IN _]. apply in_map_iff. eauto.
Qed.
Lemma pset_keys l p b : map fst (pset l p b) = map fst l.
Proof. induction l as [|[r x] l IH]; cbn; auto. destruct (r =? p)%N eqn:E; cbn; congruence. Qed.
Lemma sorted_find l p b : sorted l -> (In (p, b) l <-> pfind l p = Some b).
Proof.
  unfold sorted. induction l as [|[r x] l IH]; cbn; intros S; [split; [contradiction|discriminate]|]. inversion S as [|? ? S1 F1]; subst. rewrite IH by auto. destruct (N.eqb_spec r p) as [->|N1].
  - split; [|intros E; left; congruence]. intros [E|E]; [congruence|]. exfalso. apply IH in E; auto. rewrite Forall_forall in F1. specialize (F1 p (in_map fst _ _ E)). lia.
  - split; [intros [E|E]; auto; congruence|auto].
Qed.

(** ** the port table follows the messages *)
Definition INV (ms : list message) (d : dmgr) : Prop := sorted (dm_info d) /\ forall p, pfind (dm_info d) p = status ms p.
Lemma status_snoc ms m p : status (ms ++ [m]) p = status1 (status ms p) p m.
Proof. unfold status. rewrite fold_left_app. reflexivity. Qed.

(** what notifications a message leaves to be made *)
Definition asked (ms : list message) (m : message) : list (N * pevt) :=
  match m with
  | MAdd p => match status ms p with None => [(p, Added); (p, Up)] | Some _ => [] end
  | MRemove p => match status ms p with None => [] | Some _ => [(p, Removed)] end
  | MStatus p up => match status ms p with Some _ => [(p, if up then Up else Down)] | None => [] end
  | _ => []
  end.

Ltac rd :=
  repeat match goal with
  | W : word ?x ?w |- context [rd32 (?w ++ ?r) 0] => rewrite (rd32_word x w r W)
  | L : length ?w = 4%nat |- context [rd32 (?w ++ ?r) 4] => rewrite (rd32_skip w 4 0 r L : rd32 (w ++ r) 4 = rd32 r 0)
  | L : length ?w = 4%nat |- context [rd32 (?w ++ ?r) 8] => rewrite (rd32_skip w 4 4 r L : rd32 (w ++ r) 8 = rd32 r 4)
  end.
Lemma any_word w r : length w = 4%nat -> exists x, rd32 (w ++ r) 0 = Some x.
Proof. intros H. destruct w as [|a [|b [|c [|e [|? ?]]]]]; cbn in H; try lia. cbn -[N.mul N.add]. eauto. Qed.

Lemma handle_ok enf h ms d m bs : INV ms d -> dm_todo d = [] -> encodes m bs ->
  exists d' o, handle_msg enf h d bs = Some (d', o) /\ INV (ms ++ [m]) d' /\ dm_mon d' = dm_mon d /\
    dm_todo d' = (if enf then asked ms m else []) /\ filter not_cb o = o /\ answer enf h ms (SRecv m) o.
Proof.
  intros [S F] T E. unfold handle_msg.
  destruct E as [p t pb mo rest Wt Wp Lm|p t pb mo rest Wt Wp Lm|p up t pb mo rest Wt Wp Wm|p data t pb mo rest Wt Wp Wm SM|p x t pb mo rest Wt Wp Wm|p x t pb mo rest Wt Wp Wm X|ty t pb mo rest Wt Lp Lm X];
    pose proof (word_len _ _ Wt) as Lt; try (pose proof (word_len _ _ Wp) as Lp); try (pose proof (word_len _ _ Wm) as Lm); rd.
  - destruct (any_word mo rest Lm) as (y & ->). cbn [N.eqb Pos.eqb]. do 2 eexists. split; [reflexivity|]. unfold do_port_add. rewrite F. unfold asked. destruct (status ms p) eqn:ST; cbn [dm_info dm_mon dm_todo].
    + split; [|repeat split; auto; [destruct enf; auto|constructor; cbn; auto]]. split; auto. intros q. rewrite status_snoc. unfold status1. destruct (N.eqb_spec p q) as [<-|]; auto. rewrite F, ST. auto.
    + split; [|repeat split; auto; constructor; cbn; auto]. split; cbn [dm_info]; [apply sorted_emplace; auto; rewrite F; auto|]. intros q. rewrite status_snoc, pfind_emplace by (rewrite F; auto). unfold status1. rewrite N.eqb_sym. destruct (N.eqb_spec p q) as [<-|]; auto. rewrite ST. auto.
  - destruct (any_word mo rest Lm) as (y & ->). cbn [N.eqb Pos.eqb]. do 2 eexists. split; [reflexivity|]. unfold do_port_remove. rewrite F. unfold asked. destruct (status ms p) eqn:ST; cbn [dm_info dm_mon dm_todo].
    + split; [|repeat split; auto; constructor; cbn; auto]. split; cbn [dm_info]; [apply sorted_erase; auto|]. intros q. rewrite status_snoc, pfind_perase. unfold status1. rewrite N.eqb_sym. destruct (N.eqb_spec p q) as [<-|]; auto.
    + split; [|repeat split; auto; [destruct enf; auto|constructor; cbn; auto]]. split; auto. intros q. rewrite status_snoc. unfold status1. destruct (N.eqb_spec p q) as [<-|]; auto. rewrite F, ST. auto.
  - cbn [N.eqb Pos.eqb]. assert (H : exists d' : dmgr, do_port_set_status enf d p (if up then Up else Down) = d' /\ INV (ms ++ [MStatus p up]) d' /\ dm_mon d' = dm_mon d /\ dm_todo d' = (if enf then asked ms (MStatus p up) else [])).
    { eexists. split; [reflexivity|]. unfold do_port_set_status. rewrite F. unfold asked. destruct (status ms p) eqn:ST; cbn [dm_info dm_mon dm_todo].
      - split; [|auto]. split; cbn [dm_info]; [unfold sorted; rewrite pset_keys; auto|]. intros q. rewrite status_snoc, pfind_pset. unfold status1. rewrite (N.eqb_sym q p). destruct (N.eqb_spec p q) as [<-|]; auto. rewrite F, ST. destruct up; auto.
      - split; [|split; auto; destruct enf; auto]. split; auto. intros q. rewrite status_snoc. unfold status1. destruct (N.eqb_spec p q) as [<-|]; auto. rewrite F, ST. auto. }
    destruct H as (d' & H1 & H2 & H3 & H4). exists d', []. split; [|repeat split; auto; try (apply H2); constructor; cbn; auto]. destruct up; cbn [N.eqb Pos.eqb]; rewrite H1; reflexivity.
  - cbn [N.eqb Pos.eqb]. rewrite F. assert (I : INV (ms ++ [MPacket p data]) d) by (split; auto; intros q; rewrite status_snoc; apply F).
    assert (SK : skipn 12 (t ++ pb ++ mo ++ data ++ rest) = data ++ rest).
    { rewrite (skipn_app 12 t), Lt, (skipn_all2 t) by lia. cbn [Nat.sub app]. rewrite (skipn_app 8 pb), Lp, (skipn_all2 pb) by lia. cbn [Nat.sub app]. rewrite (skipn_app 4 mo), Lm, (skipn_all2 mo) by lia. reflexivity. }
    rewrite SK. rewrite (proj2 (N.ltb_lt _ _)) by (cbn in SM; lia). rewrite (proj2 (N.leb_le _ _)) by (rewrite app_length; lia). cbn [andb].
    replace (firstn (N.to_nat (N.of_nat (length data))) (data ++ rest)) with data by (rewrite Nat2N.id, firstn_app, Nat.sub_diag, firstn_all; cbn; rewrite app_nil_r; auto).
    assert (A := AnsPacket enf h ms p data). destruct enf, h, (status ms p) as [[|]|]; cbn [andb orb negb] in *; do 2 eexists; (split; [reflexivity|]); auto 6.
  - cbn [N.eqb Pos.eqb]. do 2 eexists. split; [reflexivity|]. split; [split; auto; intros q; rewrite status_snoc; apply F|]. split; auto. split; [rewrite T; destruct enf; auto|]. split; auto.
    apply AnsQuery; apply wr32_word; try reflexivity; eapply word_small; eauto.
  - cbn [N.eqb Pos.eqb]. rewrite (proj2 (N.eqb_neq x 0)), (proj2 (N.eqb_neq x 1)) by lia. do 2 eexists. split; [reflexivity|]. split; [split; auto; intros q; rewrite status_snoc; apply F|]. split; auto. split; [rewrite T; destruct enf; auto|]. split; auto. constructor. exact I.
  - destruct (any_word pb (mo ++ rest) Lp) as (y & ->). destruct (any_word mo rest Lm) as (z & ->).
    rewrite (proj2 (N.eqb_neq ty 0)), (proj2 (N.eqb_neq ty 1)), (proj2 (N.eqb_neq ty 2)), (proj2 (N.eqb_neq ty 3)), (proj2 (N.eqb_neq ty 5)) by lia.
    do 2 eexists. split; [reflexivity|]. split; [split; auto; intros q; rewrite status_snoc; apply F|]. split; auto. split; [rewrite T; destruct enf; auto|]. split; auto. constructor. exact I.
Qed.

Lemma filter_mon mon p e : filter not_cb (snd (mon_notify mon p e)) = [].
Proof. unfold mon_notify. destruct (pm_accept mon p e); reflexivity. Qed.

Lemma step_ok enf h ms d sa a d' o : INV ms d -> same sa a -> small_action sa -> dm_step enf h d a = Some (d', o) ->
  INV (ms ++ received [sa]) d' /\ answer enf h ms sa (filter not_cb o).
Proof.
  intros I SA SM ST. destruct SA as [m bs E|a NR].
  - cbn [dm_step] in ST. destruct (dm_todo d) eqn:T; [|discriminate]. destruct (handle_ok enf h ms d m bs I T E) as (d1 & o1 & H & I1 & _ & _ & FO & A).
    rewrite H in ST. injection ST as <- <-. rewrite FO. auto.
  - cbn [received]. rewrite app_nil_r. destruct I as [S F]. destruct a; cbn [dm_step] in ST.
    + exfalso. eapply NR. reflexivity.
    + destruct (dm_todo d) as [|[p e] r]; [discriminate|]. destruct (mon_notify (dm_mon d) p e) as [m o1] eqn:M. injection ST as <- <-. split; [split; auto|]. replace o1 with (snd (mon_notify (dm_mon d) p e)) by (rewrite M; auto). rewrite filter_mon. constructor.
    + injection ST as <- <-. split; [split; auto|]. cbn [filter not_cb]. rewrite F. assert (A := AnsUp enf h ms p). destruct enf, (status ms p) as [[|]|]; exact A.
    + injection ST as <- <-. split; [split; auto|]. cbn [filter not_cb]. constructor; auto. intros p b. rewrite sorted_find by auto. rewrite F. tauto.
    + injection ST as <- <-. split; [split; auto|]. destruct SM. apply (AnsTransmit enf h ms p data (wr32 4) (wr32 p) (wr32 (N.of_nat (length data)))); apply wr32_word; auto; [reflexivity|]. change (2 ^ 32)%N with 4294967296%N. change (2 ^ 31)%N with 2147483648%N in *. lia.
    + destruct (mon_notify (dm_mon d) p Added) as [m o1] eqn:M. injection ST as <- <-. split; [split; auto|]. rewrite filter_app. replace o1 with (snd (mon_notify (dm_mon d) p Added)) by (rewrite M; auto). rewrite filter_mon. constructor.
    + destruct (mon_notify (dm_mon d) p Removed) as [m o1] eqn:M. injection ST as <- <-. split; [split; auto|]. rewrite filter_app. replace o1 with (snd (mon_notify (dm_mon d) p Removed)) by (rewrite M; auto). rewrite filter_mon. constructor.
Qed.
Lemma run_ok enf h : forall acts sas ms d d' os, INV ms d -> Forall2 same sas acts -> Forall small_action sas -> dm_run enf h d acts = Some (d', os) ->
  INV (ms ++ received sas) d' /\ answers enf h ms sas os.
Proof.
  induction acts as [|a acts IH]; intros sas ms d d' os I S SM R; cbn in R.
  - inversion S; subst. injection R as <- <-. cbn. rewrite app_nil_r. split; auto. constructor.
  - inversion S as [|sa ? sas' ? SA S']; subst. inversion SM; subst. destruct (dm_step enf h d a) as [[d1 o]|] eqn:ST; [|discriminate]. destruct (dm_run enf h d1 acts) as [[d2 os2]|] eqn:R2; [|discriminate]. injection R as <- <-.
    destruct (step_ok _ _ _ _ _ _ _ _ I SA H1 ST) as [I1 A]. destruct (IH _ _ _ _ _ I1 S' H2 R2) as [I2 AS]. split; [|constructor; auto].
    replace (ms ++ received (sa :: sas')) with ((ms ++ received [sa]) ++ received sas'); auto. rewrite <- app_assoc. destruct sa; auto.
Qed.
Lemma INV_new : INV [] dm_new.
Proof. split; [constructor|]. reflexivity. Qed.

(** ** callbacks *)
Fixpoint rest_of (mon : list (N * bool)) (todo : list (N * pevt)) : list (N * bool) * list (N * pevt) :=
  match todo with
  | [] => (mon, [])
  | (p, e) :: r => match pm_accept mon p e with
                   | Some m => let (m', l) := rest_of m r in (m', (p, e) :: l)
                   | None => rest_of mon r
                   end
  end.
Definition ocbs (o : list dout) : list (N * pevt) := flat_map (fun o => match o with OCb p e => [(p, e)] | _ => [] end) o.
Definition CB (enf : bool) (ms : list message) (d : dmgr) (done : list (N * pevt)) : Prop :=
  if enf then (forall p, pfind (fst (rest_of (dm_mon d) (dm_todo d))) p = pfind (dm_info d) p) /\ done ++ snd (rest_of (dm_mon d) (dm_todo d)) = events_from [] ms
  else dm_todo d = [] /\ done = [].
Lemma events_snoc : forall ms b m, events_from b (ms ++ [m]) = events_from b ms ++ events1 (b ++ ms) m.
Proof. induction ms as [|x ms IH]; intros b m; cbn; [rewrite !app_nil_r; auto|]. rewrite IH, <- !app_assoc. reflexivity. Qed.

Lemma asked_ok ms m mon info : (forall p, pfind mon p = status ms p) -> (forall p, pfind info p = status (ms ++ [m]) p) ->
  (forall p, pfind (fst (rest_of mon (asked ms m))) p = pfind info p) /\ snd (rest_of mon (asked ms m)) = events1 ms m.
Proof.
  intros HM HI. assert (HI' : forall p, pfind info p = status1 (status ms p) p m) by (intros; rewrite HI; apply status_snoc). clear HI.
  destruct m as [p|p|p up|p data|p x|]; unfold asked, events1; try (split; [intros q; cbn [rest_of fst]; rewrite HI', HM; reflexivity|reflexivity]).
  - destruct (status ms p) eqn:ST; cbn [rest_of].
    + split; auto. intros q. cbn [fst]. rewrite HM, HI'. unfold status1. destruct (N.eqb_spec p q) as [<-|]; auto. rewrite ST. auto.
    + assert (A : pm_accept mon p Added = Some (mon ++ [(p, false)])) by (unfold pm_accept; rewrite HM, ST; auto). rewrite A.
      assert (B : pm_accept (mon ++ [(p, false)]) p Up = Some (pset (mon ++ [(p, false)]) p true)) by (unfold pm_accept; rewrite pfind_snoc, HM, ST, N.eqb_refl; auto). rewrite B. cbn [fst snd].
      split; auto. intros q. rewrite pfind_pset, !pfind_snoc, N.eqb_refl, !HM, ST, HI'. unfold status1. rewrite (N.eqb_sym q p). destruct (N.eqb_spec p q) as [<-|]; auto; [rewrite ST; auto|]. destruct (status ms q); auto.
  - destruct (status ms p) eqn:ST; cbn [rest_of].
    + assert (A : pm_accept mon p Removed = Some (perase mon p)) by (unfold pm_accept; rewrite HM, ST; auto). rewrite A. cbn [fst snd]. split; auto. intros q. rewrite pfind_perase, HM, HI'. unfold status1. rewrite (N.eqb_sym q p). destruct (p =? q)%N; auto.
    + split; auto. intros q. cbn [fst]. rewrite HM, HI'. unfold status1. destruct (N.eqb_spec p q) as [<-|]; auto.
  - destruct (status ms p) as [b|] eqn:ST; cbn [rest_of].
    + destruct b, up; unfold pm_accept; rewrite HM, ST; cbn [Bool.eqb fst snd rest_of]; (split; [|reflexivity]); intros q; rewrite ?pfind_pset, !HM, HI'; unfold status1; rewrite ?(N.eqb_sym q p); destruct (N.eqb_spec p q) as [<-|]; auto; rewrite ?ST; auto.
    + split; auto. intros q. cbn [fst]. rewrite HM, HI'. unfold status1. destruct (N.eqb_spec p q) as [<-|]; auto. rewrite ST. auto.
Qed.

Lemma ocbs_none o : filter not_cb o = o -> ocbs o = [].
Proof.
  intros H. assert (A : forall x, In x o -> not_cb x = true) by (intros x IN; rewrite <- H in IN; apply filter_In in IN; tauto). clear H.
  unfold ocbs in *. induction o as [|x o IH]; auto. cbn [flat_map]. rewrite IH by (intros; apply A; right; auto). specialize (A x (or_introl eq_refl)). destruct x; cbn in *; auto; discriminate.
Qed.
Lemma cb_step enf h ms d sa a d' o done : INV ms d -> CB enf ms d done -> same sa a -> no_api sa -> dm_step enf h d a = Some (d', o) ->
  CB enf (ms ++ received [sa]) d' (done ++ ocbs o).
Proof.
  intros I C SA NA ST. destruct SA as [m bs E|a NR].
  - cbn [dm_step] in ST. destruct (dm_todo d) eqn:T; [|discriminate]. destruct (handle_ok enf h ms d m bs I T E) as (d1 & o1 & H & I1 & M & TD & FO & A).
    rewrite H in ST. injection ST as <- <-. rewrite (ocbs_none _ FO), app_nil_r. cbn [received]. unfold CB in *. destruct enf; [|tauto]. rewrite T in C. cbn [rest_of fst snd] in C. destruct C as [C1 C2]. rewrite app_nil_r in C2.
    rewrite TD, M. destruct (asked_ok ms m (dm_mon d) (dm_info d1)) as [X Y]; [intros p; rewrite C1; apply I|apply I1|]. split; auto. rewrite Y, events_snoc, <- C2. reflexivity.
  - cbn [received]. rewrite app_nil_r. destruct a; cbn [dm_step] in ST; try contradiction; try (injection ST as <- <-; cbn [ocbs flat_map app]; rewrite app_nil_r; exact C).
    + exfalso. eapply NR. reflexivity.
    + destruct (dm_todo d) as [|[p e] r] eqn:T; [discriminate|]. unfold CB in *. destruct enf; [|destruct C as [C _]; congruence]. rewrite T in C. cbn [rest_of] in C. unfold mon_notify in ST. destruct (pm_accept (dm_mon d) p e) as [m|] eqn:P; injection ST as <- <-; cbn [dm_mon dm_todo dm_info].
      * destruct (rest_of m r) as [m' l] eqn:RO. cbn [fst snd] in *. destruct C. split; auto. cbn [ocbs flat_map app]. rewrite <- app_assoc. auto.
      * cbn [ocbs flat_map]. rewrite app_nil_r. exact C.
Qed.
Lemma cb_run enf h : forall acts sas ms d d' os done, INV ms d -> CB enf ms d done -> Forall2 same sas acts -> Forall small_action sas -> Forall no_api sas -> dm_run enf h d acts = Some (d', os) ->
  CB enf (ms ++ received sas) d' (done ++ cbs os).
Proof.
  induction acts as [|a acts IH]; intros sas ms d d' os done I C S SM NA R; cbn in R.
  - inversion S; subst. injection R as <- <-. cbn. rewrite !app_nil_r. auto.
  - inversion S as [|sa ? sas' ? SA S']; subst. inversion SM; subst. inversion NA; subst. destruct (dm_step enf h d a) as [[d1 o]|] eqn:ST; [|discriminate]. destruct (dm_run enf h d1 acts) as [[d2 os2]|] eqn:R2; [|discriminate]. injection R as <- <-.
    destruct (step_ok _ _ _ _ _ _ _ _ I SA H1 ST) as [I1 _]. specialize (IH _ _ _ _ _ _ I1 (cb_step _ _ _ _ _ _ _ _ _ I C SA H3 ST) S' H2 H4 R2).
    replace (ms ++ received (sa :: sas')) with ((ms ++ received [sa]) ++ received sas') by (rewrite <- app_assoc; destruct sa; auto). unfold cbs in *. cbn [concat]. rewrite flat_map_app. fold (ocbs o). rewrite app_assoc. exact IH.
Qed.
Lemma CB_new enf : CB enf [] dm_new [].
Proof. unfold CB. destruct enf; cbn; auto. Qed.

Lemma run_app enf h : forall l1 l2 d, dm_run enf h d (l1 ++ l2) = match dm_run enf h d l1 with
  | Some (d1, o1) => match dm_run enf h d1 l2 with Some (d2, o2) => Some (d2, o1 ++ o2) | None => None end | None => None end.
Proof.
  induction l1 as [|a l1 IH]; intros l2 d; cbn; [destruct (dm_run enf h d l2) as [[]|]; auto|]. destruct (dm_step enf h d a) as [[d1 o]|]; auto. rewrite IH. destruct (dm_run enf h d1 l1) as [[d2 o2]|]; auto. destruct (dm_run enf h d2 l2) as [[]|]; auto.
Qed.
Lemma drain enf h : forall d, exists d' os, dm_run enf h d (repeat DNotify (length (dm_todo d))) = Some (d', os) /\ dm_todo d' = [] /\ dm_info d' = dm_info d.
Proof.
  intros d. remember (dm_todo d) as t eqn:E. revert d E. induction t as [|[p e] t IH]; intros d E; cbn [length repeat dm_run]; [do 2 eexists; auto|].
  cbn [dm_step]. rewrite <- E. destruct (mon_notify (dm_mon d) p e) as [m o]. destruct (IH (mkDM (dm_info d) m t) eq_refl) as (d' & os & R & T & F). rewrite R. do 2 eexists. repeat split; eauto.
Qed.
