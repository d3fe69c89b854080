(** Proofs about the parser model: accounting for whole parses, absence of out-of-bounds accesses, termination. *)
From Coq Require Import List Arith NArith ZArith Bool Lia.
From Verif Require Import Base Bits Bytes EntryListSpec DataModel ExtractModel ExtractSpec ExtractProofs ExtractProps PhvModel PhvSpec PhvProofs PhvProofs2 PhvProofs3 PhvProofs4 PhvProofs5 PhvProofs6 PhvProofs7 PhvProps ParserModel ParserSpec ParserProofs.
Import ListNotations.

Lemma u64_nonneg z : (0 <= z)%Z -> u64 z = z.
Proof. intros A. unfold u64. destruct (Z.ltb_spec z 0); lia. Qed.
Lemma short_spec size bp need : bp <= size -> (0 <= need)%Z -> short size bp need = (Z.of_nat (size - bp) <? need)%Z.
Proof. intros A B. unfold short. rewrite !u64_nonneg by lia. f_equal. lia. Qed.

Section Parse.
Variables (legacy : bool) (lx : nat -> option (phv -> Z)) (d : desc) (data : list N).
Hypotheses (W : wf d) (WL : wf_layout d) (BD : bytes_ok data).
Notation extracted := (extracted d data).
Notation piece := (piece data).

Lemma extract_one_spec s h vl bp s' bp' ev : INV false d s -> bp <= length data -> extract_one lx d s h vl data bp = Some (inr (s', bp', ev)) ->
  extracted s h bp s' bp' ev /\ exists t n, nth_error (ds_h d) h = Some t /\ bp' = bp + total (widths (hd_fields t) n) / 8.
Proof.
  intros I HB E. unfold extract_one in E. destruct vl as [[len maxb]|].
  - unfold extract_VL in E. destruct (nth_error (ds_h d) h) as [t|] eqn:T; [|discriminate]. cbn [bind] in E. destruct (nth_error (p_h s) h) as [x|] eqn:X; [|discriminate]. cbn [bind] in E. cbv zeta in E.
    destruct (negb _); [discriminate|]. destruct (short _ _ _); [discriminate|]. destruct (negb _ && _); [discriminate|]. destruct (_ && _); [discriminate|].
    destruct (do_extract d s h (Z.to_nat (len s)) data bp) as [[[s1 bp1] ev1]|] eqn:D; [|discriminate]. cbn [bind] in E. injection E as <- <- <-.
    destruct (do_extract_spec d data W WL BD _ _ _ _ _ _ _ I HB D) as (A & t' & T' & B & _). split; auto. exists t', (Z.to_nat (len s)). rewrite <- T'. auto.
  - unfold extract_fixed in E. destruct (nth_error (ds_h d) h) as [t|] eqn:T; [|discriminate]. cbn [bind] in E. destruct (nth_error (p_h s) h) as [x|] eqn:X; [|discriminate]. cbn [bind] in E.
    destruct (short _ _ _); [discriminate|]. destruct (if is_VL t then _ else _) as [n|]; [|discriminate]. cbn [bind] in E.
    destruct (do_extract d s h n data bp) as [[[s1 bp1] ev1]|] eqn:D; [|discriminate]. cbn [bind] in E. injection E as <- <- <-.
    destruct (do_extract_spec d data W WL BD _ _ _ _ _ _ _ I HB D) as (A & t' & T' & B & _). split; auto. exists t', n. rewrite <- T'. auto.
Qed.

Definition acct (bp bp' : nat) (ev : list event) : Prop := exists ps, concat ps = piece bp (bp' - bp) /\ Forall2 accounts ps ev.
Lemma acct_one s h bp s' bp' ev : extracted s h bp s' bp' ev -> acct bp bp' ev.
Proof. intros [_ _ _ (x & _ & _ & _ & -> & A) _]. exists [piece bp (bp' - bp)]. split; [apply app_nil_r|]. constructor; auto. Qed.
Lemma acct_none bp : acct bp bp [].
Proof. exists []. split; [|constructor]. rewrite Nat.sub_diag. reflexivity. Qed.
Lemma piece_app bp n m : piece bp n ++ piece (bp + n) m = piece bp (n + m).
Proof.
  unfold ParserProofs.piece. rewrite <- skipn_skipn'. set (l := skipn bp data). rewrite <- (firstn_skipn n l) at 3. rewrite firstn_app, firstn_firstn, firstn_length, (Nat.min_r (n + m) n) by lia. f_equal.
  destruct (Nat.le_gt_cases n (length l)) as [A|A].
  - rewrite Nat.min_l by lia. f_equal. lia.
  - rewrite (skipn_all2 l) by lia. rewrite !firstn_nil. auto.
Qed.
Lemma acct_app a b c e1 e2 : a <= b -> b <= c -> acct a b e1 -> acct b c e2 -> acct a c (e1 ++ e2).
Proof.
  intros AB BC (p1 & E1 & F1) (p2 & E2 & F2). exists (p1 ++ p2). split; [|apply Forall2_app; auto]. rewrite concat_app, E1, E2. replace b with (a + (b - a)) at 2 by lia. rewrite piece_app. f_equal. lia.
Qed.

Lemma store_inv s h f v : INV false d s -> field_exists d h f -> exists s', store s h f v = Some s' /\ INV false d s' /\ p_s s' = p_s s /\ p_us s' = p_us s.
Proof.
  intros I (t & T & L). destruct (H_get _ _ _ h I (nth_error_lt _ _ _ T)) as (x & X). unfold store. unfold H in X. rewrite X. cbn [bind]. fold (H s h) in X.
  pose proof (i_f _ _ _ I _ _ _ T X) as [FM _]. destruct (nth_error_some (d_fields x) f) as (o & O); [rewrite <- (F2_len _ _ _ FM); auto|]. rewrite O. cbn [bind].
  destruct (step_inv false legacy d s (OSet h f (v mod 2 ^ Z.of_nat (fst o))) W I) as (s' & E & I'); [exists t; auto|discriminate|]. cbn [step] in E. exists s'. split; auto. split; auto.
  unfold set_field in E. unfold H in X. rewrite X in E. cbn [bind] in E. rewrite O in E. cbn [bind] in E. injection E as <-. auto.
Qed.
Lemma skip_spec s bp n s' bp' ev : bp <= length data -> (0 <= n)%Z -> skip data s bp n = Some (inr (s', bp', ev)) -> s' = s /\ bp' = bp + Z.to_nat n /\ bp' <= length data /\ acct bp bp' ev.
Proof.
  intros HB HN E. unfold skip in E. rewrite short_spec in E by auto. destruct (Z.ltb_spec (Z.of_nat (length data - bp)) n) as [A|A]; [discriminate|]. injection E as <- <- <-. split; auto. split; auto. split; [lia|].
  exists [piece bp (Z.to_nat n)]. split; [cbn [concat]; rewrite app_nil_r; f_equal; lia|]. constructor; [|constructor]. unfold accounts, ParserProofs.piece. rewrite firstn_length, skipn_length. lia.
Qed.

Record opost (bp : nat) (s' : phv) (bp' : nat) (ev : list event) : Prop := { op_inv : INV false d s'; op_le : bp <= bp' <= length data; op_acct : acct bp bp' ev }.
Lemma exec_op_spec o s bp s' bp' ev : INV false d s -> bp <= length data -> pop_ok d o -> exec_op legacy lx d data o s bp = Some (inr (s', bp', ev)) ->
  opost bp s' bp' ev /\ (is_extract o -> exists h t n, extracts d o h /\ nth_error (ds_h d) h = Some t /\ bp' = bp + total (widths (hd_fields t) n) / 8) /\ (forall n, o = PShift n -> bp' = bp + n).
Proof.
  intros I HB OK E. destruct o as [h vl|k vl|k i vl|h f g|h f off w|c e|f|n|g]; cbn [exec_op pop_ok is_extract extracts] in *.
  - destruct (extract_one_spec _ _ _ _ _ _ _ I HB E) as (A & t & n & T & B). split; [|split; [intros _; exists h, t, n; auto|discriminate]]. constructor; [apply A|apply A|eapply acct_one; eauto].
  - destruct (nth_error (ds_s d) k) as [el|] eqn:K; [|discriminate]. cbn [bind] in E. destruct (nth_error (p_s s) k) as [next|] eqn:N; [|discriminate]. cbn [bind] in E.
    destruct (Nat.leb_spec (length el) next) as [A|A]; [discriminate|]. destruct (nth_error el next) as [h|] eqn:NE; [|discriminate]. cbn [bind] in E.
    destruct (extract_one lx d s h vl data bp) as [[err|[[s1 bp1] ev1]]|] eqn:X; cbn [bind] in E; try discriminate.
    destruct (extract_one_spec _ _ _ _ _ _ _ I HB X) as (B & t & n & T & C). pose proof (ex_inv _ _ _ _ _ _ _ _ B) as I1.
    destruct (step_inv false legacy d s1 (OPushBack k) W I1) as (s2 & P & I2); [cbn; auto|discriminate|]. cbn [step] in P.
    destruct (push_back d s1 k) as [q|]; [|discriminate]. cbn [bind] in P, E. injection P as P. injection E as <- <- <-. subst s2.
    split; [constructor; [auto|apply B|eapply acct_one; eauto]|]. split; [|discriminate]. intros _. exists h, t, n. split; auto. exists el. split; auto. eapply nth_error_In; eauto.
  - destruct (nth_error (ds_us d) k) as [el|] eqn:K; [|discriminate]. cbn [bind] in E. destruct (nth_error (p_us s) k) as [next|] eqn:N; [|discriminate]. cbn [bind] in E.
    destruct (Nat.leb_spec (length el) next) as [A|A]; [discriminate|]. destruct (nth_error el next) as [u|] eqn:NE; [|discriminate]. cbn [bind] in E.
    destruct (nth_error (ds_u d) u) as [m|] eqn:M; [|discriminate]. cbn [bind] in E. destruct (nth_error m i) as [h|] eqn:MI; [|discriminate]. cbn [bind] in E.
    destruct (extract_one lx d s h vl data bp) as [[err|[[s1 bp1] ev1]]|] eqn:X; cbn [bind] in E; try discriminate.
    destruct (extract_one_spec _ _ _ _ _ _ _ I HB X) as (B & t & n & T & C). pose proof (ex_inv _ _ _ _ _ _ _ _ B) as I1.
    destruct (step_inv false legacy d s1 (OPushBackU k) W I1) as (s2 & P & I2); [cbn; eapply nth_error_lt; eauto|discriminate|]. cbn [step] in P.
    destruct (push_back_u d s1 k) as [q|]; [|discriminate]. cbn [bind] in P, E. injection P as P. injection E as <- <- <-. subst s2.
    split; [constructor; [auto|apply B|eapply acct_one; eauto]|]. split; [|discriminate]. intros _. exists h, t, n. split; auto. exists el, u, m. split; auto. split; [eapply nth_error_In; eauto|auto].
  - destruct (store_inv s h f (g s) I OK) as (s1 & S1 & I1 & _). rewrite S1 in E. cbn [bind] in E. injection E as <- <- <-. split; [|split; [tauto|discriminate]]. constructor; [auto|lia|apply acct_none].
  - destruct (short _ _ _); [discriminate|]. destruct (peek off w data bp) as [b|]; [|discriminate]. cbn [bind] in E. destruct (store_inv s h f (import_bytes b) I OK) as (s1 & S1 & I1 & _). rewrite S1 in E. cbn [bind] in E.
    injection E as <- <- <-. split; [|split; [tauto|discriminate]]. constructor; [auto|lia|apply acct_none].
  - destruct (c s); [|discriminate]. injection E as <- <- <-. split; [|split; [tauto|discriminate]]. constructor; [auto|lia|apply acct_none].
  - destruct (run_inv false legacy d (f s) W (OK s) ltac:(discriminate) s I) as (s1 & R & I1). rewrite R in E. cbn [bind] in E. injection E as <- <- <-. split; [|split; [tauto|discriminate]]. constructor; [auto|lia|apply acct_none].
  - apply skip_spec in E as (-> & -> & A & B); [|auto|lia]. split; [constructor; [auto|lia|auto]|]. split; [tauto|]. intros m [= <-]. lia.
  - destruct (Z.ltb_spec (g s) 0); [discriminate|]. cbv zeta in E. destruct (negb _); [discriminate|]. assert (0 <= (g s mod 2 ^ 64) / 8)%Z by (apply Z.div_pos; [apply Z.mod_pos_bound; lia|lia]).
    apply skip_spec in E as (-> & -> & A & B); [|auto|auto]. split; [constructor; [auto|lia|auto]|]. split; [tauto|discriminate].
Qed.
Lemma consumes_spec o s bp s' bp' ev : INV false d s -> bp <= length data -> pop_ok d o -> consumes d o -> exec_op legacy lx d data o s bp = Some (inr (s', bp', ev)) -> bp < bp'.
Proof.
  intros I HB OK [(XO & C)|(n & -> & P)] E; destruct (exec_op_spec _ _ _ _ _ _ I HB OK E) as (_ & A & B).
  - destruct (A XO) as (h & t & n & XH & T & ->). specialize (C h t XH T). rewrite total_widths. assert (1 <= (fixed_bits (hd_fields t) + n_VL (hd_fields t) * n) / 8); [|lia]. apply Nat.div_le_lower_bound; lia.
  - specialize (B n eq_refl). lia.
Qed.
Lemma exec_ops_spec ops : forall s bp s' bp' ev e, INV false d s -> bp <= length data -> Forall (pop_ok d) ops -> exec_ops legacy lx d data ops s bp = Some (s', bp', ev, e) ->
  opost bp s' bp' ev /\ (e = None -> (exists o, In o ops /\ consumes d o) -> bp < bp').
Proof.
  induction ops as [|o ops IH]; intros s bp s' bp' ev e I HB OK E; cbn [exec_ops] in E.
  - injection E as <- <- <- <-. split; [constructor; [auto|lia|apply acct_none]|]. intros _ (o & [] & _).
  - inversion OK as [|? ? OK1 OK2]; subst. destruct (exec_op legacy lx d data o s bp) as [[err|[[s1 bp1] ev1]]|] eqn:X; [|..|discriminate].
    + injection E as <- <- <- <-. split; [constructor; [auto|lia|apply acct_none]|discriminate].
    + destruct (exec_op_spec _ _ _ _ _ _ I HB OK1 X) as ([I1 L1 A1] & _). destruct (exec_ops legacy lx d data ops s1 bp1) as [[[[s2 bp2] ev2] e2]|] eqn:Y; [|discriminate].
      injection E as <- <- <- <-. destruct (IH _ _ _ _ _ _ I1 (proj2 L1) OK2 Y) as ([I2 L2 A2] & C). split; [constructor; [auto|lia|eapply acct_app; [..|exact A1|exact A2]; lia]|].
      intros EN (o' & [<-|IN] & CO); [|specialize (C EN (ex_intro _ o' (conj IN CO))); lia]. pose proof (consumes_spec _ _ _ _ _ _ I HB OK1 CO X). lia.
Qed.

(** ** Whole parses *)
Variable (env : nat -> list vset).
Variable (pg : program).
Hypothesis (PO : prog_ok d pg).
Lemma loop_spec fuel : forall st s bp ev s' payload ev' e, INV false d s -> bp <= length data -> acct 0 bp ev ->
  parse_loop legacy lx d env (pg_states pg) data fuel st s bp ev = Done s' payload ev' e ->
  exists bp', bp <= bp' <= length data /\ payload = skipn bp' data /\ acct 0 bp' ev' /\ INV false d s'.
Proof.
  induction fuel as [|fuel IH]; intros st s bp ev s' payload ev' e I HB A E; destruct st as [i|]; cbn [parse_loop] in E; try discriminate.
  - destruct (Nat.leb_spec bp (length data)); [|discriminate]. injection E as <- <- <- <-. exists bp. auto.
  - destruct (nth_error (pg_states pg) i) as [p|] eqn:P; [|discriminate]. pose proof (po_ops _ _ PO p (nth_error_In _ _ P)) as OK.
    destruct (exec_ops legacy lx d data (st_ops p) s bp) as [[[[s1 bp1] ev1] [err|]]|] eqn:X; [..|discriminate]; destruct (exec_ops_spec _ _ _ _ _ _ _ I HB OK X) as ([I1 L1 A1] & _).
    + destruct (Nat.leb_spec bp1 (length data)); [|discriminate]. injection E as <- <- <- <-. exists bp1. split; [lia|]. split; auto. split; auto. eapply acct_app; [| |exact A|exact A1]; lia.
    + destruct (next_state d (env fuel) data p s1 bp1) as [st'|]; [|discriminate]. destruct (IH _ _ _ _ _ _ _ _ I1 (proj2 L1) (acct_app _ _ _ _ _ (Nat.le_0_l _) (proj1 L1) A A1) E) as (bp' & B & C). exists bp'. split; [lia|auto].
  - destruct (Nat.leb_spec bp (length data)); [|discriminate]. injection E as <- <- <- <-. exists bp. auto.
Qed.

(** ** Termination *)
Lemma select_in envn cs dflt key n : select envn cs dflt key = Some n -> n = dflt \/ exists c, In c cs /\ case_next c = n.
Proof.
  induction cs as [|c cs IH]; intros E; cbn [select] in E; [injection E as <-; auto|]. destruct (case_match envn c key) as [[]|]; cbn [bind] in E; [|..|discriminate].
  - injection E as <-. right. exists c. split; auto. left. auto.
  - destruct (IH E) as [A|(c' & A & B)]; auto. right. exists c'. split; auto. right. auto.
Qed.
Lemma next_edge envn i p s bp j : nth_error (pg_states pg) i = Some p -> next_state d envn data p s bp = Some (Some j) -> edge pg i j.
Proof.
  intros P E. exists p. split; auto. unfold next_state in E. destruct (st_key p) as [ks|].
  - destruct (build_key d s data bp ks) as [key|]; [|discriminate]. cbn [bind] in E. apply select_in in E as [A|A]; auto.
  - injection E as E. auto.
Qed.
Lemma edge_range i j : edge pg i j -> j < length (pg_states pg).
Proof.
  intros (p & P & E). destruct (po_next _ _ PO p (nth_error_In _ _ P)) as [A B]. destruct E as [E|(c & IN & E)].
  - rewrite E in A. exact A.
  - rewrite Forall_forall in B. specialize (B c IN). rewrite E in B. exact B.
Qed.
Lemma walk_snoc busy i k j : idle_walk busy pg i k -> busy k = false -> edge pg k j -> idle_walk busy pg i j.
Proof. intros A. induction A as [i k B E|i m k B E A IH]; intros C F; [eapply iw_step; eauto; apply iw_one; auto|eapply iw_step; eauto]. Qed.
Lemma loop_terminates busy : (forall i, busy i = true -> consuming d pg i) -> (forall i, ~ idle_walk busy pg i i) ->
  forall fuel i s bp ev l, INV false d s -> bp <= length data -> NoDup l -> (forall x, In x l -> x < length (pg_states pg) /\ idle_walk busy pg x i) -> i < length (pg_states pg) ->
  (length data - bp) * (length (pg_states pg) + 1) + (length (pg_states pg) - length l) + 1 <= fuel ->
  parse_loop legacy lx d env (pg_states pg) data fuel (Some i) s bp ev <> OutOfFuel.
Proof.
  intros BC AC. set (n := length (pg_states pg)). induction fuel as [|fuel IH]; intros i s bp ev l I HB ND WK RG FU; [rewrite Nat.add_1_r in FU; inversion FU|]. cbn [parse_loop].
  destruct (nth_error_some (pg_states pg) i RG) as (p & P). rewrite P. pose proof (po_ops _ _ PO p (nth_error_In _ _ P)) as OK.
  destruct (exec_ops legacy lx d data (st_ops p) s bp) as [[[[s1 bp1] ev1] [err|]]|] eqn:X; [destruct (bp1 <=? length data); discriminate| |discriminate].
  destruct (exec_ops_spec _ _ _ _ _ _ _ I HB OK X) as ([I1 L1 A1] & CO). destruct (next_state d (env fuel) data p s1 bp1) as [[j|]|] eqn:NX; [| |discriminate].
  2: { destruct fuel; cbn [parse_loop]; destruct (bp1 <=? length data); discriminate. }
  pose proof (next_edge _ _ _ _ _ _ P NX) as ED. pose proof (edge_range _ _ ED) as RJ.
  destruct (busy i) eqn:BI.
  - destruct (BC i BI) as (p' & o & P' & IN & C). assert (p' = p) by congruence. subst p'. specialize (CO eq_refl (ex_intro _ o (conj IN C))).
    apply (IH j s1 bp1 (ev ++ ev1) []); auto; [lia|constructor|intros x []|]. cbn [length]. assert (length data - bp1 + 1 <= length data - bp) as LE by lia.
    apply (Nat.mul_le_mono_r _ _ (n + 1)) in LE. rewrite Nat.mul_add_distr_r in LE. revert LE FU. generalize ((length data - bp1) * (n + 1)) ((length data - bp) * (n + 1)). intros. lia.
  - assert (ND' : NoDup (i :: l)) by (constructor; auto; intros IN; apply (AC i), (proj2 (WK i IN))).
    assert (WK' : forall x, In x (i :: l) -> x < n /\ idle_walk busy pg x j).
    { intros x [<-|IN]; [split; auto; apply iw_one; auto|]. destruct (WK x IN) as [A B]. split; auto. eapply walk_snoc; eauto. }
    assert (LL : length (i :: l) <= n).
    { rewrite <- (seq_length n 0). apply NoDup_incl_length; auto. intros x IN. apply in_seq. destruct (WK' x IN). lia. }
    apply (IH j s1 bp1 (ev ++ ev1) (i :: l)); auto; [lia|]. cbn [length] in *. assert (length data - bp1 <= length data - bp) as LE by lia. apply (Nat.mul_le_mono_r _ _ (n + 1)) in LE. revert LE FU. generalize ((length data - bp1) * (n + 1)) ((length data - bp) * (n + 1)). intros. lia.
Qed.
End Parse.
