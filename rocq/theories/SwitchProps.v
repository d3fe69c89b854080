(** C43: what simple_switch does with a packet after ingress and after egress. *)
From Coq Require Import List Arith NArith ZArith Bool Lia.
From Verif Require Import Base PhvModel AccessModel AccessSpec AccessProps SwitchModel SwitchSpec SwitchProofs SwitchProofs2.
Import ListNotations.
Local Open Scope N_scope.

(** After ingress: clones, digest and exactly one of resubmit, multicast, drop and unicast, as documented.  Nothing throws if the field lists named by the packet exist. *)
Theorem C43_ingress E p0 : sane E p0 (ingress_done E p0) ->
  (lists_exist E (ingress_done E p0) Resubmit -> exists effs, ingress_one E p0 = Some effs) /\
  forall effs, ingress_one E p0 = Some effs -> ingress_spec E p0 (ingress_done E p0) effs.
Proof. intros [[M0 M1] R0 R [J _] HS]. apply ingress_holds; assumption. Qed.

(** A parser whose outcome depends on the ingress port and on the bytes only *)
Definition parses_bytes (E : env) : Prop := forall v w d, v_valid v = v_valid w -> v_f v 0 0 = v_f w 0 0 ->
  snd (e_parse E v d) = snd (e_parse E w d) /\ v_valid (fst (e_parse E v d)) = v_valid (fst (e_parse E w d)) /\
  forall f, is_meta E f = false -> v_valid (fst (e_parse E w d)) (fst f) = true -> v_f (fst (e_parse E v d)) (fst f) (snd f) = v_f (fst (e_parse E w d)) (fst f) (snd f).
(** With such a parser an ingress clone has the headers and the payload the packet had when it had been parsed. *)
Theorem C43_clone_is_the_parsed_packet E p0 p len l t q : parses_bytes E -> v_valid (k_phv p0) = v_valid (e_pool E) -> field p0 ingress_port = held_by E ingress_port (k_in p0) ->
  ingress_clone_ok E p0 p len l t q -> forall v n, e_parse E (k_phv p0) (content p0) = (v, n) ->
  v_valid (k_phv q) = v_valid v /\ content q = skipn n (content p0) /\
  forall f, is_meta E f = false -> v_valid v (fst f) = true -> existsb (fld_eqb f) l = false -> field q f = v_f v (fst f) (snd f).
Proof.
  intros HP HV HI (_ & _ & _ & _ & _ & w & m & W1 & W2 & (v' & PE & V' & F') & HC) v n EP.
  destruct (HP w (k_phv p0) (content p0)) as (H1 & H2 & H3); [congruence|rewrite W1; symmetry; exact HI|].
  rewrite PE, EP in H1, H2, H3. cbn [fst snd] in *. subst m. split; [congruence|]. split; [exact HC|]. intros f Hm Hv Hl. rewrite (F' f Hm), Hl; [apply H3; assumption|rewrite H2; exact Hv].
Qed.

Theorem C43_egress_begins E port p0 : regs_ok (k_regs p0) -> exists p1, egress_begin E port p0 = Some p1 /\ egress_ready E port p0 p1.
Proof. apply egress_begin_ok. Qed.

(** After egress: clones, and exactly one of drop, recirculate and transmit. *)
Theorem C43_egress E port p0 p1 : egress_begin E port p0 = Some p1 -> sane E p0 (egress_done E p1) -> (forall v d, N.of_nat (length (e_deparse E v d)) < 2 ^ 64) ->
  (lists_exist E (egress_done E p1) Recirculate -> exists effs, egress_one E port p0 = Some effs) /\
  forall effs, egress_one E port p0 = Some effs -> egress_spec_ok E (egress_done E p1) effs.
Proof. intros HB [[M0 M1] R0 R [J _] HS] HD. apply egress_holds; assumption. Qed.

(** What the primitives request *)
Lemma set_get r a v : regs_ok r -> exists r', do_set r a v = Some r' /\ length r' = 4%nat /\ forall b, do_get r' b = if attr_eq_dec b a then Some (v mod 2 ^ width a) else do_get r b.
Proof.
  intros H. destruct (regs_ok_form r H) as (a0 & a1 & a2 & a3 & -> & _). destruct (set_held a0 a1 a2 a3 a v) as (b0 & b1 & b2 & ES & HH). exists [b0; b1; b2; a3].
  split; [exact ES|]. split; [reflexivity|]. intros b. rewrite !get_held, HH. destruct (attr_eq_dec b a); reflexivity.
Qed.
Lemma lor_32768 s : s < 2 ^ 15 -> N.lor (u16 s) 32768 = s + 2 ^ 15.
Proof.
  intros H. unfold u16. rewrite N.mod_small by (assert (2 ^ 15 < 2 ^ 16) by reflexivity; lia). change 32768 with (2 ^ 15). rewrite <- N.lxor_lor, <- N.add_nocarry_lxor; [reflexivity| |].
  all: apply N.bits_inj_0; intros n; rewrite N.land_spec, N.pow2_bits_eqb; destruct (N.eqb_spec 15 n) as [<-|]; [|apply andb_false_r]; rewrite andb_true_r;
    rewrite <- (N.mod_small s (2 ^ 15)) by exact H; apply N.mod_pow2_bits_high; lia.
Qed.
Theorem C43_clone_request E p session fl : length (k_regs p) = 4%nat /\ Forall (fun v => v < 2 ^ 64) (k_regs p) -> session < 2 ^ 15 -> fl < 2 ^ 16 ->
  exists r, prim_clone (k_regs p) session fl = Some r /\ requested E (with_regs p r) = e_sessions E session /\ do_get r CloneFieldList = Some fl /\
    forall a, a <> CloneSession -> a <> CloneFieldList -> do_get r a = do_get (k_regs p) a.
Proof.
  intros HR HS HF. destruct (regs_ok_form _ HR) as (a0 & a1 & a2 & a3 & ER & _). unfold prim_clone. rewrite ER.
  destruct (set_held a0 a1 a2 a3 CloneSession (N.lor (u16 session) 32768)) as (b0 & b1 & b2 & E1 & H1). rewrite E1. cbn [bind].
  destruct (set_held b0 b1 b2 a3 CloneFieldList fl) as (c0 & c1 & c2 & E2 & H2). rewrite E2. exists [c0; c1; c2; a3]. split; [reflexivity|].
  rewrite (lor_32768 session HS) in H1. split; [|split].
  - unfold requested. cbn [with_regs k_regs]. rewrite get_held, H2, H1. cbn [attr_eq_dec width]. destruct (attr_eq_dec CloneSession CloneFieldList) as [Q|_]; [discriminate|].
    destruct (attr_eq_dec CloneSession CloneSession) as [_|N]; [|exfalso; apply N; reflexivity]. change (2 ^ width CloneSession) with (2 * 2 ^ 15).
    rewrite (N.mod_small (session + 2 ^ 15)) by lia. replace (session + 2 ^ 15 =? 0) with false by (symmetry; apply N.eqb_neq; intro Q; apply N.eq_add_0 in Q as [_ Q]; discriminate Q).
    f_equal. rewrite <- (N.mul_1_l (2 ^ 15)) at 1. rewrite N.mod_add by discriminate. apply N.mod_small. exact HS.
  - rewrite get_held, H2. destruct (attr_eq_dec CloneFieldList CloneFieldList) as [_|N]; [|exfalso; apply N; reflexivity]. f_equal. apply N.mod_small. exact HF.
  - intros a Ha Hb. rewrite !get_held, H2, H1. destruct (attr_eq_dec a CloneFieldList); [contradiction|]. destruct (attr_eq_dec a CloneSession); [contradiction|reflexivity].
Qed.
Theorem C43_resubmit_request r fl : length r = 4%nat /\ Forall (fun v => v < 2 ^ 64) r -> fl < 2 ^ 16 ->
  exists r', prim_resubmit r fl = Some r' /\ forall a, do_get r' a = if attr_eq_dec a Resubmit then Some fl else do_get r a.
Proof.
  intros HR HF. destruct (set_get r Resubmit fl HR) as (r' & E & _ & H). exists r'. split; [exact E|]. intros a. rewrite H. rewrite N.mod_small by exact HF. reflexivity.
Qed.
Theorem C43_recirculate_request r fl : length r = 4%nat /\ Forall (fun v => v < 2 ^ 64) r -> fl < 2 ^ 16 ->
  exists r', prim_recirculate r fl = Some r' /\ forall a, do_get r' a = if attr_eq_dec a Recirculate then Some fl else do_get r a.
Proof.
  intros HR HF. destruct (set_get r Recirculate fl HR) as (r' & E & _ & H). exists r'. split; [exact E|]. intros a. rewrite H. rewrite N.mod_small by exact HF. reflexivity.
Qed.

(** Mirroring sessions: the configuration in force after a history of calls *)
Definition valid_id (id : Z) : bool := ((0 <=? id) && (id <? 2 ^ 15))%Z.
Fixpoint configured (history : list sop) (id : Z) : option mcfg :=   (* latest call first *)
  match history with
  | [] => None
  | SAdd i c :: h => if Z.eqb i id && valid_id id then Some c else configured h id
  | SDel i :: h => if Z.eqb i id then None else configured h id
  | SGet _ :: h => configured h id
  end.
Definition answer (history : list sop) (o : sop) : sout :=
  match o with
  | SAdd id _ => SBool (valid_id id)
  | SDel id => SBool (valid_id id && match configured history id with Some _ => true | None => false end)
  | SGet id => SCfg (configured history id)
  end.
Fixpoint answers (history : list sop) (l : list sop) : list sout := match l with [] => [] | o :: r => answer history o :: answers (o :: history) r end.

Lemma s_find_erase m i j : s_find (s_erase m i) j = if Z.eqb i j then None else s_find m j.
Proof.
  unfold s_find, s_erase. induction m as [|[k c] m IH]; cbn [filter find fst]; [destruct (Z.eqb i j); reflexivity|].
  destruct (Z.eqb_spec k i) as [->|N]; cbn [negb].
  - rewrite IH. destruct (Z.eqb_spec i j) as [->|]; [reflexivity|]. reflexivity.
  - cbn [find fst]. destruct (Z.eqb_spec k j) as [->|]; [|exact IH]. destruct (Z.eqb_spec i j) as [->|]; [contradiction|reflexivity].
Qed.
Lemma valid_le id : ((0 <=? id) && (id <=? 32767))%Z = valid_id id.
Proof. unfold valid_id. f_equal. apply eq_true_iff_eq. rewrite Z.leb_le, Z.ltb_lt. change (2 ^ 15)%Z with 32768%Z. lia. Qed.
Theorem C43_sessions l : snd (s_run [] l) = answers [] l.
Proof.
  assert (G : forall l m h, (forall id, s_find m id = configured h id) -> (forall id, valid_id id = false -> configured h id = None) -> snd (s_run m l) = answers h l).
  2: { apply G; [reflexivity|reflexivity]. }
  clear l. induction l as [|o l IH]; intros m h HM HV; [reflexivity|]. cbn [s_run answers].
  assert (ST : forall m1 x, s_step m o = (m1, x) -> x = answer h o /\ forall id, s_find m1 id = configured (o :: h) id).
  { intros m1 x. destruct o as [i c|i|i]; cbn [s_step answer configured]; rewrite ?valid_le.
    - destruct (valid_id i) eqn:EV; intros Q; injection Q as <- <-; (split; [reflexivity|]); intros id.
      + transitivity (if Z.eqb i id then Some c else s_find (s_erase m i) id).
        { unfold s_find. cbn [find fst]. destruct (Z.eqb i id); reflexivity. }
        rewrite s_find_erase, HM. destruct (Z.eqb_spec i id) as [<-|]; cbn [andb]; [rewrite EV|]; reflexivity.
      + rewrite HM. destruct (Z.eqb_spec i id) as [<-|]; cbn [andb]; [rewrite EV|]; reflexivity.
    - destruct (valid_id i) eqn:EV; intros Q; injection Q as <- <-; (split; [rewrite ?HM; reflexivity|]); intros id.
      + rewrite s_find_erase, HM. reflexivity.
      + rewrite HM. destruct (Z.eqb_spec i id) as [<-|]; [apply HV; exact EV|reflexivity].
    - intros Q; injection Q as <- <-. split; [rewrite HM; reflexivity|exact HM]. }
  destruct (s_step m o) as [m1 x]. destruct (ST m1 x eq_refl) as [-> H1]. specialize (IH m1 (o :: h) H1).
  destruct (s_run m1 l) as [m2 xs]. cbn [snd] in *. f_equal. apply IH.
  intros id EV. cbn [configured]. destruct o as [i c|i|i]; [rewrite EV, andb_false_r|destruct (Z.eqb i id); [reflexivity|]|]; apply HV; exact EV.
Qed.

Lemma regs_okb r : Nat.eqb (length r) 4 && forallb (fun v => v <? 2 ^ 64) r = true -> regs_ok r.
Proof.
  intros H. apply andb_true_iff in H as [H1 H2]. split; [apply Nat.eqb_eq; exact H1|]. apply Forall_forall. intros x Hx. rewrite forallb_forall in H2. apply N.ltb_lt, H2, Hx.
Qed.
(** A concrete program: two metadata headers and one header of two bytes; ingress sets the attributes and fields given to it *)
Section EX.
Variable v2 : vec. Variable r2 : regs. Variable t2 : option N.
Definition pool0 : vec := mk_v (fun _ => false) (fun _ _ => 0).
Definition exE (pool : vec) (ses : N -> option mcfg) : env := mk_env 511 1 (fun h => Nat.leb h 1) (fun _ _ => 16) true false ses
  (fun g => if g =? 7 then [(1, 10); (2, 20)] else if g =? 8 then [(3, 30)] else [])
  (fun l => if l =? 0 then Some [] else if l =? 1 then Some [(0, 5)%nat] else None)
  (fun v d => (mk_v (fun h => Nat.eqb h 2) (fun h i => if Nat.eqb h 2 then nth i d 0 + get_f v instance_type else v_f v h i), 2%nat))
  (fun p => (v2, r2, t2)) (fun p => (v2, r2, t2)) (fun v d => v_f v 2 0 :: v_f v 2 1 :: d) pool [9; 9; 9; 9].
End EX.
Definition exp0 : pkt := mk_k 3 4 0 [1; 2; 3; 4] 0 (mk_v (fun _ => false) (fun h i => if Nat.eqb h 0 && Nat.eqb i 0 then 3 else 0)) [4; 0; 0; 0] None.
Definition after (f : nat * nat -> N) : vec := mk_v (fun h => Nat.eqb h 2) (fun h i => f (h, i)).
Definition ex_sessions (i : N) : option mcfg :=
  if i =? 5 then Some (mk_m 2 true 0 false) else if i =? 6 then Some (mk_m 2 true 8 true) else if i =? 9 then Some (mk_m 0 false 7 true) else None.
(** clone to session 9 (group 7) keeping field (0,5), and multicast to group 7 *)
Definition ex_after := after (fun f => if fld_eqb f mcast_grp then 7 else if fld_eqb f (0, 5)%nat then 77 else if fld_eqb f (2, 0)%nat then 50 else 2).
Definition ex_regs : regs := match prim_clone [4; 0; 0; 0] 9 1 with Some r => r | None => [] end.

Example C43_ingress_nonvacuous : exists effs, sane (exE ex_after ex_regs None pool0 ex_sessions) exp0 (ingress_done (exE ex_after ex_regs None pool0 ex_sessions) exp0) /\
  ingress_one (exE ex_after ex_regs None pool0 ex_sessions) exp0 = Some effs /\ length effs = 4%nat /\
  map (fun e => match e with Queue port _ q => (port, field q egress_rid, field q instance_type, field q (0, 5)%nat, content q) | _ => (0, 0, 0, 0, []) end) effs =
  [(10, 1, 1, 77, [3; 4]); (20, 2, 1, 77, [3; 4]); (10, 1, 5, 77, [3; 4]); (20, 2, 5, 77, [3; 4])].
Proof.
  eexists. split; [|split; [vm_compute; reflexivity|split; [reflexivity|vm_compute; reflexivity]]].
  constructor; try (split; reflexivity).
  - apply regs_okb. reflexivity.
  - apply regs_okb. reflexivity.
  - apply regs_okb. reflexivity.
  - intros c H. vm_compute in H. injection H as <-. discriminate.
Qed.
(** egress: clone to port 2, recirculate with field list 1 *)
Definition ex_eregs : regs := match prim_clone [4; 0; 0; 0] 5 1 with Some r => match prim_recirculate r 1 with Some r' => r' | None => [] end | None => [] end.
Example C43_egress_nonvacuous : exists p1 effs, egress_begin (exE ex_after ex_eregs None pool0 ex_sessions) 10 exp0 = Some p1 /\
  sane (exE ex_after ex_eregs None pool0 ex_sessions) exp0 (egress_done (exE ex_after ex_eregs None pool0 ex_sessions) p1) /\
  egress_one (exE ex_after ex_eregs None pool0 ex_sessions) 10 exp0 = Some effs /\
  map (fun e => match e with Queue port _ q => (port, field q instance_type, field q (0, 5)%nat, content q) | Reinsert q => (1000, field q instance_type, field q (0, 5)%nat, content q) | _ => (0, 0, 0, []) end) effs =
  [(2, 2, 77, [1; 2; 3; 4]); (1000, 4, 77, [50; 2; 1; 2; 3; 4])].
Proof.
  do 2 eexists. split; [reflexivity|]. split; [|split; vm_compute; reflexivity].
  constructor; try (split; reflexivity).
  - apply regs_okb. reflexivity.
  - apply regs_okb. reflexivity.
  - apply regs_okb. reflexivity.
  - intros c H. vm_compute in H. injection H as <-. discriminate.
Qed.
Example C43_sessions_nonvacuous : snd (s_run [] [SAdd 5 (mk_m 1 true 0 false); SAdd 5 (mk_m 2 true 0 false); SGet 5; SDel 5; SGet 5; SDel 5; SAdd 32768 (mk_m 1 true 0 false); SGet 32768]) =
  [SBool true; SBool true; SCfg (Some (mk_m 2 true 0 false)); SBool true; SCfg None; SBool false; SBool false; SCfg None].
Proof. reflexivity. Qed.

(** Findings.  The clone a session sends to its port has the rid of the session's last multicast replica: the condition on sessions is needed. *)
Theorem C43_group_and_port_refuted : ~ (forall E p0 effs,
  (e_meta E 0 = true /\ e_meta E 1 = true) -> regs_ok (k_regs p0) -> regs_ok (k_regs (ingress_done E p0)) -> regs_ok (e_junk E) ->
  ingress_one E p0 = Some effs -> ingress_spec E p0 (ingress_done E p0) effs).
Proof.
  intros H. set (E := exE (after (fun f => if fld_eqb f egress_spec then 511 else 0)) (match prim_clone [4; 0; 0; 0] 6 0 with Some r => r | None => [] end) None pool0 ex_sessions).
  destruct (ingress_one E exp0) as [effs|] eqn:EI; [|vm_compute in EI; discriminate EI].
  assert (A : ingress_spec E exp0 (ingress_done E exp0) effs).
  { apply H; [split; reflexivity|apply regs_okb; reflexivity|apply regs_okb; reflexivity|apply regs_okb; reflexivity|exact EI]. }
  clear H. vm_compute in EI. injection EI as <-. destruct A as (len & clones & digest & fate & _ & HE & HC & (id & Hid & HD) & (rs & Hrs & HF)).
  vm_compute in Hid. injection Hid as <-. cbn in HD. subst digest. vm_compute in Hrs. injection Hrs as <-. vm_compute in HF. subst fate. cbn [app] in HE. rewrite app_nil_r in HE. subst clones.
  destruct HC as (l & (id & Hid & Hl) & es & F & HE). vm_compute in Hid. injection Hid as <-. vm_compute in Hl. injection Hl as <-.
  inversion F as [|t1 e1 ts1 es1 S1 F1 Q1 Q2]; subst. inversion F1 as [|t2 e2 ts2 es2 S2 F2 Q3 Q4]; subst. inversion F2; subst. clear F F1 F2.
  destruct S1 as (q1 & _ & _ & ->). destruct S2 as (q2 & K2 & _ & ->). unfold priority_of in HE. cbn in HE. injection HE as _ HE.
  destruct K2 as (_ & _ & _ & _ & MK & _). specialize (MK egress_rid eq_refl). rewrite <- HE in MK. vm_compute in MK. discriminate MK.
Qed.
(** An ingress clone is parsed with metadata left behind by an earlier packet: it depends on more than the packet and the configuration *)
Theorem C43_clone_depends_on_pool_refuted : ~ (forall v2 r2 t2 pool pool' ses p0 p q q' n n',
  (forall h, v_valid pool h = v_valid pool' h) -> ingress_one (exE v2 r2 t2 pool ses) p0 = Some [Queue p n q] -> ingress_one (exE v2 r2 t2 pool' ses) p0 = Some [Queue p n' q'] ->
  forall h, v_valid (k_phv q) h = true -> v_f (k_phv q) h 0 = v_f (k_phv q') h 0).
Proof.
  intros H. set (v2 := after (fun f => if fld_eqb f egress_spec then 511 else 0)). set (r2 := match prim_clone [4; 0; 0; 0] 5 0 with Some r => r | None => [] end).
  pose (stale := mk_v (fun _ => false) (fun h i => if Nat.eqb h 0 && Nat.eqb i 2 then 5 else 0)).
  destruct (ingress_one (exE v2 r2 None pool0 ex_sessions) exp0) as [[|[p n q| | |] [|? ?]]|] eqn:E1; try (vm_compute in E1; discriminate E1).
  destruct (ingress_one (exE v2 r2 None stale ex_sessions) exp0) as [[|[p' n' q'| | |] [|? ?]]|] eqn:E2; try (vm_compute in E2; discriminate E2).
  assert (Hp : p' = p) by (vm_compute in E1, E2; congruence). subst p'. specialize (H v2 r2 None pool0 stale ex_sessions exp0 p q q' n n' (fun h => eq_refl) E1 E2 2%nat).
  assert (V : v_valid (k_phv q) 2 = true) by (vm_compute in E1; injection E1 as <- <- <-; reflexivity). specialize (H V).
  assert (A : v_f (k_phv q) 2 0 = 1) by (vm_compute in E1; injection E1 as <- <- <-; reflexivity). assert (B : v_f (k_phv q') 2 0 = 6) by (vm_compute in E2; injection E2 as <- <- <-; reflexivity).
  rewrite A, B in H. discriminate H.
Qed.
(** The truncation requested in ingress holds for the unicast packet only: replicas are sent whole *)
Theorem C43_truncated_multicast_refuted : ~ (forall E p0 effs port prio q, ingress_one E p0 = Some effs -> In (Queue port prio q) effs -> k_trunc q = k_trunc (ingress_done E p0)).
Proof.
  intros H. set (E := exE (after (fun f => if fld_eqb f mcast_grp then 8 else 0)) [4; 0; 0; 0] (Some 2) pool0 ex_sessions).
  destruct (ingress_one E exp0) as [[|[p n q| | |] l]|] eqn:E1; try (vm_compute in E1; discriminate E1).
  specialize (H E exp0 _ p n q E1 (or_introl eq_refl)). vm_compute in E1. injection E1 as <- <- <- <-. vm_compute in H. discriminate H.
Qed.
(** Ids are kept in 16 bits, or in 15 for sessions *)
Theorem C43_resubmit_id_refuted : ~ (forall r fl r', regs_ok r -> fl <> 0 -> prim_resubmit r fl = Some r' -> do_get r' Resubmit <> Some 0).
Proof. intros H. apply (H [4; 0; 0; 0] 65536 [4; 0; 0; 0]); [apply regs_okb; reflexivity|discriminate|reflexivity|reflexivity]. Qed.
Theorem C43_session_id_refuted : ~ (forall E p session fl r, regs_ok (k_regs p) -> prim_clone (k_regs p) session fl = Some r -> requested E (with_regs p r) = e_sessions E session).
Proof.
  intros H. destruct (prim_clone (k_regs exp0) 32773 0) as [r|] eqn:Q; [|vm_compute in Q; discriminate Q].
  specialize (H (exE pool0 [] None pool0 ex_sessions) exp0 32773 0 r). specialize (H (regs_okb (k_regs exp0) eq_refl) Q). vm_compute in Q. injection Q as <-. vm_compute in H. discriminate H.
Qed.

Print Assumptions C43_ingress.
Print Assumptions C43_clone_is_the_parsed_packet.
Print Assumptions C43_egress_begins.
Print Assumptions C43_egress.
Print Assumptions C43_clone_request.
Print Assumptions C43_resubmit_request.
Print Assumptions C43_recirculate_request.
Print Assumptions C43_sessions.
Print Assumptions C43_group_and_port_refuted.
Print Assumptions C43_clone_depends_on_pool_refuted.
Print Assumptions C43_truncated_multicast_refuted.
Print Assumptions C43_resubmit_id_refuted.
Print Assumptions C43_session_id_refuted.
