(** Proofs for C64, continued: sending, statistics, receiving, histories. *)
From Coq Require Import List Arith NArith ZArith Bool Sorted Permutation Lia.
From Verif Require Import PortMonModel DevMgrModel BmiModel BmiSpec BmiProofs.
Import ListNotations.

Lemma u64_add a b : u64 (u64 a + b) = u64 (a + b).
Proof. unfold u64. apply N.add_mod_idemp_l. discriminate. Qed.

(** rewriting the slots of the live ports in place, keeping number, name and descriptor *)
Definition keeps (h : slot -> slot) : Prop := forall s, sl_num (h s) = sl_num s /\ sl_fd (h s) = sl_fd s.
Lemma inv_map max sock m w live tl h f : inv max sock m w live tl -> keeps h -> (forall p, slot_of (f p) = h (slot_of p)) ->
  INVB max sock (set_ports m (map h live ++ tl)) (mkW (map f (w_ports w)) (w_handler w)).
Proof.
  intros I K HF. exists (map h live), tl.
  assert (E1 : map sl_num (map h live) = map sl_num live) by (rewrite map_map; apply map_ext; intros s; apply K).
  assert (E2 : map sl_fd (map h live) = map sl_fd live) by (rewrite map_map; apply map_ext; intros s; apply K).
  constructor; cbn [set_ports b_ports b_count b_fds b_maxfd b_handler w_ports w_handler]; rewrite ?E2, ?map_length; try apply I; auto.
  - rewrite <- (i_max _ _ _ _ _ _ I), (i_ports _ _ _ _ _ _ I), !app_length, map_length. auto.
  - unfold asc. rewrite E1. apply I.
  - rewrite map_map, (map_ext _ (fun p => h (slot_of p))) by auto. rewrite <- (map_map slot_of h). apply Permutation_map, I.
  - intros s IN. apply in_map_iff in IN as (s0 & <- & IN). destruct (K s0) as [_ ->]. apply I. auto.
Qed.
Definition at_num (n : Z) (h : slot -> slot) (s : slot) : slot := if Z.eqb (sl_num s) n then h s else s.
Lemma map_one l1 p l2 h : asc (l1 ++ slot_of p :: l2) -> map (at_num (p_num p) h) (l1 ++ slot_of p :: l2) = l1 ++ h (slot_of p) :: l2.
Proof.
  intros S. apply asc_app in S as (_ & S2 & S3). change (slot_of p :: l2) with ([slot_of p] ++ l2) in S2. apply asc_app in S2 as (_ & _ & S5).
  assert (K : forall l, (forall s, In s l -> sl_num s <> p_num p) -> map (at_num (p_num p) h) l = l).
  { clear. intros l H. rewrite <- (map_id l) at 2. apply map_ext_in. intros s IN. unfold at_num. rewrite (proj2 (Z.eqb_neq _ _)); auto. }
  rewrite map_app. cbn [map]. rewrite !K; [|intros s IN; specialize (S5 (slot_of p) s (or_introl eq_refl) IN); cbn in S5; lia|intros s IN; specialize (S3 s (slot_of p) IN (or_introl eq_refl)); cbn in S3; lia].
  unfold at_num. cbn [sl_num slot_of]. rewrite Z.eqb_refl. reflexivity.
Qed.
Lemma inv_change max sock m w live tl n p l1 l2 h f : inv max sock m w live tl -> live = l1 ++ slot_of p :: l2 -> p_num p = n -> keeps h ->
  (forall p, slot_of (f p) = h (slot_of p)) -> exists l, put (b_ports m) (length l1) (h (slot_of p)) = Some l /\ INVB max sock (set_ports m l) (change w n f).
Proof.
  intros I E N K HF. exists (map (at_num n h) live ++ tl). split.
  - rewrite (i_ports _ _ _ _ _ _ I), E, <- app_assoc. cbn [app]. rewrite put_at by auto. rewrite <- N, map_one by (rewrite <- E; apply I). rewrite <- app_assoc. reflexivity.
  - apply (inv_map _ _ _ _ _ _ (at_num n h) (fun p => if Z.eqb (p_num p) n then f p else p)); auto.
    + intros s. unfold at_num. destruct (sl_num s =? n)%Z; auto.
    + intros q. unfold at_num. cbn [sl_num slot_of]. destruct (p_num q =? n)%Z; auto.
Qed.

Lemma counts_out p len : counts (mkPort (p_num p) (p_name p) (p_fd p) (p_in p) (len :: p_out p)) = sl_stats (count_out len (slot_of p)).
Proof.
  unfold counts, count_out. cbn [p_in p_out sl_stats slot_of in_packets in_octets out_packets out_octets total fold_right length counts].
  change (2 ^ 64)%N with 18446744073709551616%N. fold (total (p_out p)). change ((?x mod 18446744073709551616)%N) with (u64 x). f_equal.
  - rewrite u64_add. f_equal. lia.
  - rewrite u64_add. f_equal. lia.
Qed.
Lemma counts_in p len : counts (mkPort (p_num p) (p_name p) (p_fd p) (len :: p_in p) (p_out p)) = sl_stats (count_in len (slot_of p)).
Proof.
  unfold counts, count_in. cbn [p_in p_out sl_stats slot_of in_packets in_octets out_packets out_octets total fold_right length counts].
  change (2 ^ 64)%N with 18446744073709551616%N. fold (total (p_in p)). change ((?x mod 18446744073709551616)%N) with (u64 x). f_equal.
  - rewrite u64_add. f_equal. lia.
  - rewrite u64_add. f_equal. lia.
Qed.

Lemma send_ok max sock m w num data ok : INVB max sock m w ->
  exists m' r w', b_send m num data ok = Some (m', r) /\ bspec max sock w (BSend num data ok) (RSent (fst r) (snd r)) w' /\ INVB max sock m' w'.
Proof.
  intros (live & tl & I). unfold b_send.
  destruct (find_cases _ _ _ _ _ _ num I) as [(i & l1 & p & l2 & F & E & L & N & LK)|(i & l1 & l2 & F & E & L & LK & LO & HI)]; rewrite F.
  2:{ exists m, (None, false), w. repeat split; auto; [constructor; auto|exists live, tl; auto]. }
  assert (NE : nth_error (b_ports m) i = Some (slot_of p)) by (rewrite (i_ports _ _ _ _ _ _ I), E, <- app_assoc; cbn [app]; rewrite nth_error_app2, L, Nat.sub_diag by lia; auto). rewrite NE.
  destruct ok.
  - destruct (inv_change _ _ _ _ _ _ num p l1 l2 (count_out (N.of_nat (length data))) (fun p => mkPort (p_num p) (p_name p) (p_fd p) (p_in p) (N.of_nat (length data) :: p_out p)) I E N) as (l & P & I2).
    + intros s. split; reflexivity.
    + intros q. unfold slot_of at 1. rewrite counts_out. reflexivity.
    + rewrite <- L, P. do 3 eexists. split; [reflexivity|]. split; [|exact I2]. cbn [fst snd]. apply (SpSend max sock w num data true p LK).
  - do 3 eexists. split; [reflexivity|]. split; [|exists live, tl; exact I]. cbn [fst snd]. apply (SpSend max sock w num data false p LK).
Qed.
Lemma stats_ok max sock m w num clear : INVB max sock m w ->
  exists m' r w', b_stats m num clear = Some (m', r) /\ bspec max sock w (BStats num clear) (RStats r) w' /\ INVB max sock m' w'.
Proof.
  intros (live & tl & I). unfold b_stats.
  destruct (find_cases _ _ _ _ _ _ num I) as [(i & l1 & p & l2 & F & E & L & N & LK)|(i & l1 & l2 & F & E & L & LK & LO & HI)]; rewrite F.
  2:{ exists m, None, w. repeat split; auto; [constructor; auto|exists live, tl; auto]. }
  assert (NE : nth_error (b_ports m) i = Some (slot_of p)) by (rewrite (i_ports _ _ _ _ _ _ I), E, <- app_assoc; cbn [app]; rewrite nth_error_app2, L, Nat.sub_diag by lia; auto). rewrite NE.
  destruct clear.
  - destruct (inv_change _ _ _ _ _ _ num p l1 l2 clear_stats (fun p => mkPort (p_num p) (p_name p) (p_fd p) [] []) I E N) as (l & P & I2).
    + intros s. split; reflexivity.
    + intros q. reflexivity.
    + rewrite <- L, P. do 3 eexists. split; [reflexivity|]. split; [|exact I2]. apply (SpClear max sock w num p LK).
  - do 3 eexists. split; [reflexivity|]. split; [|exists live, tl; exact I]. apply (SpStats max sock w num p LK).
Qed.
Lemma ifname_ok max sock m w num : INVB max sock m w -> b_ifname m num = Some (match look w num with Some p => Some (p_name p) | None => None end).
Proof.
  intros (live & tl & I). unfold b_ifname.
  destruct (find_cases _ _ _ _ _ _ num I) as [(i & l1 & p & l2 & F & E & L & N & LK)|(i & l1 & l2 & F & E & L & LK & LO & HI)]; rewrite F, LK; auto.
  assert (NE : nth_error (b_ports m) i = Some (slot_of p)) by (rewrite (i_ports _ _ _ _ _ _ I), E, <- app_assoc; cbn [app]; rewrite nth_error_app2, L, Nat.sub_diag by lia; auto). rewrite NE. reflexivity.
Qed.

(** ** receiving *)
Definition hit (ready : list N) (s : slot) : bool := existsb (N.eqb (sl_fd s)) ready.
Definition rx_slot (ready : list N) (rx : N -> option (list N)) (s : slot) : slot :=
  if hit ready s then match rx (sl_fd s) with Some data => count_in (N.of_nat (length data)) s | None => s end else s.
Definition got (ready : list N) (rx : N -> option (list N)) (l : list slot) : list (Z * list N) :=
  flat_map (fun s => if hit ready s then match rx (sl_fd s) with Some data => [(sl_num s, data)] | None => [] end else []) l.
Lemma recv_loop_ok ready rx tl : forall r done n, length (filter (hit ready) r) <= n ->
  recv_loop (length r) (done ++ r ++ tl) (length done) n ready rx = Some (done ++ map (rx_slot ready rx) r ++ tl, got ready rx r).
Proof.
  induction r as [|s r IH]; intros done n LN; cbn [length recv_loop map app got flat_map]; auto. cbn [filter] in LN.
  destruct n as [|n].
  - assert (Z0 : forall t, In t (s :: r) -> hit ready t = false).
    { assert (FN : filter (hit ready) (s :: r) = []) by (cbn [filter]; destruct (if hit ready s then _ else _); [auto|cbn in LN; lia]). intros t IN. destruct (hit ready t) eqn:H; auto. exfalso. assert (X : In t (filter (hit ready) (s :: r))) by (apply filter_In; auto). rewrite FN in X. destruct X. }
    f_equal. f_equal.
    + f_equal. change (s :: r ++ tl = map (rx_slot ready rx) (s :: r) ++ tl). change (s :: r ++ tl) with ((s :: r) ++ tl). f_equal. rewrite <- (map_id (s :: r)) at 1. apply map_ext_in. intros t IN. unfold rx_slot. rewrite (Z0 t IN). reflexivity.
    + change ([] = got ready rx (s :: r)). revert Z0. generalize (s :: r). clear. induction l as [|t l IH]; intros H; cbn; auto. rewrite (H t) by (left; auto). apply IH. intros u IN. apply H. right. auto.
  - rewrite nth_error_app2, Nat.sub_diag by lia. cbn [nth_error]. unfold rx_slot at 1. fold (hit ready s). destruct (hit ready s) eqn:H; cbn [length] in LN.
    + destruct (rx (sl_fd s)) as [data|].
      * rewrite put_at by auto. specialize (IH (done ++ [count_in (N.of_nat (length data)) s]) n ltac:(lia)). rewrite app_length in IH. cbn [length] in IH. rewrite <- app_assoc in IH. cbn [app] in IH. rewrite IH. f_equal. f_equal. rewrite <- app_assoc. reflexivity.
      * specialize (IH (done ++ [s]) n ltac:(lia)). rewrite app_length in IH. cbn [length] in IH. rewrite <- app_assoc in IH. cbn [app] in IH. rewrite IH. f_equal. f_equal. rewrite <- app_assoc. reflexivity.
    + specialize (IH (done ++ [s]) (S n) ltac:(lia)). rewrite app_length in IH. cbn [length] in IH. rewrite <- app_assoc in IH. cbn [app] in IH. rewrite IH. f_equal. f_equal. rewrite <- app_assoc. reflexivity.
Qed.
Lemma hit_in ready s : hit ready s = true <-> In (sl_fd s) ready.
Proof. unfold hit. rewrite existsb_exists. split; [intros (x & IN & E); apply N.eqb_eq in E; subst; auto|]. intros IN. exists (sl_fd s). split; auto. apply N.eqb_refl. Qed.
Lemma hits_bound ready l : NoDup ready -> NoDup (map sl_fd l) -> length (filter (hit ready) l) <= length ready.
Proof.
  intros R D. rewrite <- (map_length sl_fd). apply NoDup_incl_length.
  - clear R. induction l as [|s l IH]; cbn in *; [constructor|]. inversion D; subst. destruct (hit ready s); cbn; auto. constructor; auto. intros IN. apply H1. apply in_map_iff in IN as (t & E & IN). apply filter_In in IN as [IN _]. apply in_map_iff. eauto.
  - intros x IN. apply in_map_iff in IN as (s & <- & IN). apply filter_In in IN as [_ H]. apply hit_in. auto.
Qed.
Lemma got_in ready rx l n data : In (n, data) (got ready rx l) <-> exists s, In s l /\ sl_num s = n /\ In (sl_fd s) ready /\ rx (sl_fd s) = Some data.
Proof.
  unfold got. rewrite in_flat_map. split.
  - intros (s & IN & H). destruct (hit ready s) eqn:HT; [|destruct H]. destruct (rx (sl_fd s)) as [d|] eqn:R; [|destruct H]. destruct H as [H|[]]. injection H as <- <-. exists s. repeat split; auto. apply hit_in. auto.
  - intros (s & IN & <- & HT & R). exists s. split; auto. apply hit_in in HT. rewrite HT, R. left. auto.
Qed.
Lemma got_asc ready rx l : asc l -> StronglySorted Z.lt (map fst (got ready rx l)).
Proof.
  unfold asc. induction l as [|s l IH]; intros S; [constructor|]. cbn [map] in S. inversion S as [|? ? S1 F1]; subst. unfold got. cbn [flat_map]. fold (got ready rx l).
  destruct (hit ready s); [|auto]. destruct (rx (sl_fd s)); [|auto]. cbn [app map fst]. constructor; auto. rewrite Forall_forall in *. intros x IN. apply in_map_iff in IN as ((n & d) & <- & IN). apply got_in in IN as (t & IN & <- & _). cbn [fst]. apply F1. apply (in_map sl_num). auto.
Qed.
Lemma rx_keeps ready rx : keeps (rx_slot ready rx).
Proof. intros s. unfold rx_slot. destruct (hit ready s), (rx (sl_fd s)); auto. Qed.

Lemma pass_ok max sock m w ready rx : INVB max sock m w -> NoDup ready ->
  exists m' l w', b_pass m ready rx = Some (m', l) /\ bspec max sock w (BPass ready rx) (RGot l) w' /\ INVB max sock m' w'.
Proof.
  intros (live & tl & I) NR. unfold b_pass. destruct (w_handler w) eqn:WH.
  2:{ exists m, [], w. rewrite (i_handler _ _ _ _ _ _ I), WH. split; [destruct (length ready =? 0); auto|]. split; [apply SpPassNot; auto|exists live, tl; auto]. }
  set (f := fun p => if existsb (N.eqb (p_fd p)) ready then match rx (p_fd p) with Some data => mkPort (p_num p) (p_name p) (p_fd p) (N.of_nat (length data) :: p_in p) (p_out p) | None => p end else p).
  assert (X : (if length ready =? 0 then Some (m, []) else if b_handler m then match recv_loop (b_count m) (b_ports m) 0 (length ready) ready rx with Some (l, o) => Some (set_ports m l, o) | None => None end else Some (m, []))
              = Some (set_ports m (map (rx_slot ready rx) live ++ tl), got ready rx live)).
  { destruct (Nat.eqb_spec (length ready) 0) as [Z0|].
    - destruct ready; [|discriminate]. replace (got [] rx live) with (@nil (Z * list N)) by (clear; induction live; auto).
      replace (map (rx_slot [] rx) live) with live by (symmetry; apply map_id). unfold set_ports. rewrite <- (i_ports _ _ _ _ _ _ I). destruct m; reflexivity.
    - rewrite (i_handler _ _ _ _ _ _ I), WH, (i_ports _ _ _ _ _ _ I), (i_count _ _ _ _ _ _ I). assert (Q := recv_loop_ok ready rx tl live [] (length ready) (hits_bound ready live NR (i_nodup _ _ _ _ _ _ I))). cbn [app] in Q. change (length (@nil slot)) with 0 in Q. rewrite Q. reflexivity. }
  rewrite X. do 3 eexists. split; [reflexivity|]. split.
  - eapply SpPass; [auto|apply got_asc, I| |reflexivity]. intros n data. rewrite got_in. unfold arrival. assert (ND := inv_nodup _ _ _ _ _ _ I). destruct w as [ps hb]. split.
    + intros (s & IN & <- & HT & R). apply (Permutation_in _ (i_perm _ _ _ _ _ _ I)) in IN. apply in_map_iff in IN as (p & <- & IN). exists p. repeat split; auto. apply look_in; auto.
    + intros (p & LK & HT & R). apply look_in in LK as [IN <-]; auto. exists (slot_of p). repeat split; auto. apply (Permutation_in _ (Permutation_sym (i_perm _ _ _ _ _ _ I))). apply in_map. auto.
  - rewrite <- WH. apply inv_map; auto; [apply rx_keeps|]. intros p. unfold rx_slot, hit. cbn [sl_fd slot_of]. destruct (existsb (N.eqb (p_fd p)) ready); auto. destruct (rx (p_fd p)); auto. unfold slot_of at 1. rewrite counts_in. reflexivity.
Qed.

Lemma step_bmi max sock m w o : INVB max sock m w -> legal sock w o -> exists m' x w', b_step m o = Some (m', x) /\ bspec max sock w o x w' /\ INVB max sock m' w'.
Proof.
  intros I LG. destruct o as [num name cr|num| |num data ok|num clear|num| |ready rx]; cbn [b_step].
  - destruct (add_ok _ _ _ _ _ _ _ I LG) as (m' & ok & w' & -> & S & I'). eauto 6.
  - destruct (remove_ok _ _ _ _ num I) as (m' & ok & w' & -> & S & I'). eauto 6.
  - do 3 eexists. split; [reflexivity|]. split; [constructor|]. destruct I as (live & tl & I). exists live, tl. constructor; try apply I. reflexivity.
  - destruct (send_ok _ _ _ _ num data ok I) as (m' & [fd r] & w' & -> & S & I'). eauto 6.
  - destruct (stats_ok _ _ _ _ num clear I) as (m' & r & w' & -> & S & I'). eauto 6.
  - rewrite (ifname_ok _ _ _ _ num I). do 3 eexists. split; [reflexivity|]. split; [constructor|auto].
  - do 3 eexists. split; [reflexivity|]. split; [|exact I]. destruct I as (live & tl & I). constructor.
    + intros fd. rewrite (i_fds _ _ _ _ _ _ I). assert (H : In fd (map sl_fd live) <-> exists p, In p (w_ports w) /\ p_fd p = fd); [|tauto].
      rewrite (perm_in _ _ fd (Permutation_map sl_fd (i_perm _ _ _ _ _ _ I))), map_map. rewrite in_map_iff. cbn. split; intros (p & A & B); exists p; auto.
    + intros p IN. assert (B := i_maxfd _ _ _ _ _ _ I (slot_of p)). cbn in B. enough (p_fd p <= b_maxfd m)%N by lia. apply B. apply (Permutation_in _ (Permutation_sym (i_perm _ _ _ _ _ _ I))). apply in_map. auto.
  - destruct (pass_ok _ _ _ _ ready rx I LG) as (m' & l & w' & -> & S & I'). eauto 6.
Qed.
Lemma run_bmi max sock : forall ops m w, INVB max sock m w -> legals max sock w ops -> exists m' xs w', b_run m ops = Some (m', xs) /\ bspecs max sock w ops xs w' /\ INVB max sock m' w'.
Proof.
  induction ops as [|o ops IH]; intros m w I LG; cbn [b_run]; [exists m, [], w; repeat split; auto; constructor|].
  inversion LG as [|? ? ? L1 L2]; subst. destruct (step_bmi _ _ _ _ _ I L1) as (m1 & x & w1 & -> & S & I1). destruct (IH m1 w1 I1 (L2 _ _ S)) as (m2 & xs & w2 & -> & S2 & I2). do 3 eexists. split; [reflexivity|]. split; [|exact I2]. econstructor; eauto.
Qed.

(** ** the device manager *)
Lemma to_int_inj p q : (p < 2 ^ 32)%N -> (q < 2 ^ 32)%N -> to_int p = to_int q -> p = q.
Proof. unfold to_int. change (2 ^ 32)%N with 4294967296%N. intros. destruct (N.ltb_spec p 2147483648), (N.ltb_spec q 2147483648); lia. Qed.
Lemma to_int_neq p q : (p < 2 ^ 32)%N -> (q < 2 ^ 32)%N -> p <> q -> (to_int p =? to_int q)%Z = false.
Proof. intros A B C. apply Z.eqb_neq. intros E. apply C. apply to_int_inj; auto. Qed.

Definition names (w : world) (n : Z) : option N := match look w n with Some p => Some (p_name p) | None => None end.
Record dinv (max : nat) (sock : N) (d : bdev) (w : world) : Prop := mkDInv {
  di_b : INVB max sock (bd_mgr d) w;
  di_sorted : StronglySorted N.lt (map fst (bd_info d));
  di_small : forall p n, In (p, n) (bd_info d) -> (p < 2 ^ 32)%N;
  di_info : forall p n, (p < 2 ^ 32)%N -> (In (p, n) (bd_info d) <-> names w (to_int p) = Some n) }.

Lemma names_change w n f k : (forall p, p_num (f p) = p_num p /\ p_name (f p) = p_name p) -> names (change w n f) k = names w k.
Proof.
  intros K. unfold names, look, change. cbn [w_ports]. induction (w_ports w) as [|p l IH]; cbn [map find]; auto.
  destruct (p_num p =? n)%Z; [destruct (K p) as [-> E2]|]; destruct (p_num p =? k)%Z; auto. rewrite E2. auto.
Qed.
Lemma names_map ps f b b' k : (forall p, p_num (f p) = p_num p /\ p_name (f p) = p_name p) -> names (mkW (map f ps) b) k = names (mkW ps b') k.
Proof. intros K. unfold names, look. cbn [w_ports]. induction ps as [|p l IH]; cbn [map find]; auto. destruct (K p) as [-> E2]. destruct (p_num p =? k)%Z; auto. rewrite E2. auto. Qed.
Lemma names_other max sock w o x w' k : bspec max sock w o x w' -> match o with BAdd _ _ _ | BRemove _ => False | _ => True end -> names w' k = names w k.
Proof.
  intros S NO. destruct S; try contradiction; auto.
  - destruct ok; auto. apply names_change. auto.
  - apply names_change. auto.
  - subst w'. destruct w as [ps hb]. apply names_map. intros p. destruct (existsb (N.eqb (p_fd p)) ready); auto. destruct (rx (p_fd p)); auto.
Qed.
Lemma emplace_sorted l p n : StronglySorted N.lt (map fst l) -> StronglySorted N.lt (map fst (info_emplace l p n)).
Proof.
  assert (KEY : forall l x, In x (map fst (info_emplace l p n)) -> x = p \/ In x (map fst l)).
  { clear. induction l as [|[q y] l IH]; cbn; intros x H; [destruct H as [<-|[]]; auto|]. destruct (p <? q)%N; [cbn in H; destruct H as [<-|H]; auto|]. destruct (p =? q)%N; auto. cbn in H. destruct H as [<-|H]; auto. destruct (IH _ H); auto. }
  induction l as [|[q x] l IH]; cbn [info_emplace]; intros S; [repeat constructor|]. cbn [map fst] in S. inversion S as [|? ? S1 F1]; subst.
  destruct (N.ltb_spec p q); [cbn [map fst]; constructor; [exact S|]; constructor; auto; eapply Forall_impl; [|exact F1]; cbn; intros; lia|].
  destruct (N.eqb_spec p q); [cbn [map fst]; exact S|]. cbn [map fst]. constructor; auto. rewrite Forall_forall in *. intros y IN. apply KEY in IN as [->|IN]; auto. lia.
Qed.
Lemma emplace_in l p n q k : (forall x, ~ In (p, x) l) -> (In (q, k) (info_emplace l p n) <-> (q = p /\ k = n) \/ In (q, k) l).
Proof.
  induction l as [|[r x] l IH]; cbn [info_emplace]; intros H; [cbn; intuition congruence|]. destruct (p <? r)%N; [cbn; intuition congruence|].
  destruct (N.eqb_spec p r) as [->|]; [exfalso; apply (H x); left; auto|]. cbn [In]. rewrite IH by (intros y IN; apply (H y); right; auto). intuition congruence.
Qed.
Lemma erase_in l p q k : In (q, k) (info_erase l p) <-> In (q, k) l /\ q <> p.
Proof. unfold info_erase. rewrite filter_In. cbn. destruct (N.eqb_spec q p); cbn; intuition congruence. Qed.
Lemma erase_sorted l p : StronglySorted N.lt (map fst l) -> StronglySorted N.lt (map fst (info_erase l p)).
Proof.
  unfold info_erase. induction l as [|[q x] l IH]; cbn; intros S; auto. inversion S as [|? ? S1 F1]; subst. destruct (q =? p)%N; cbn; auto. constructor; auto.
  rewrite Forall_forall in *. intros y IN. apply F1. apply in_map_iff in IN as ((r & z) & <- & IN). apply filter_In in IN as [IN _]. apply in_map_iff. eauto.
Qed.

Lemma find_filter ps n k : find (fun p => (p_num p =? k)%Z) (filter (fun p => negb (p_num p =? n)%Z) ps) = if (k =? n)%Z then None else find (fun p => (p_num p =? k)%Z) ps.
Proof.
  induction ps as [|p ps IH]; cbn [filter find]; [destruct (k =? n)%Z; auto|]. destruct (Z.eqb_spec (p_num p) n); cbn [negb find]; rewrite IH; destruct (Z.eqb_spec k n), (Z.eqb_spec (p_num p) k); auto; congruence.
Qed.
Lemma dev_step max sock d w o d' x : dinv max sock d w -> small_op o -> legals max sock w (under o) -> bd_step d o = Some (d', x) ->
  exists xs w', bspecs max sock w (under o) xs w' /\ dinv max sock d' w'.
Proof.
  intros [B S SMALL INF] SM LG ST. destruct o as [p name cr|p| |p clear|o]; cbn [under] in *; cbn [bd_step] in ST.
  - inversion LG as [|? ? ? L1 _]; subst. destruct (mon_notify (bd_mon d) p Added) as [mon cb]. destruct (add_ok _ _ _ _ _ _ _ B L1) as (m' & ok & w' & E & SP & I'). rewrite E in ST. injection ST as <- <-.
    exists [RCode ok], w'. split; [econstructor; [exact SP|constructor]|]. inversion SP; subst; [|constructor; auto].
    assert (NO : forall n, ~ In (p, n) (bd_info d)) by (intros n IN; apply INF in IN; auto; unfold names in IN; rewrite H4 in IN; discriminate).
    constructor; cbn [bd_mgr bd_info]; auto.
    + apply emplace_sorted. auto.
    + intros q n IN. apply emplace_in in IN as [[-> _]|IN]; eauto.
    + intros q n Q. rewrite emplace_in by auto. unfold names, look. cbn [w_ports find p_num]. destruct (N.eq_dec q p) as [->|NE].
      * rewrite Z.eqb_refl. cbn [p_name]. split; [intros [[_ ->]|IN]; auto; exfalso; eapply NO; eauto|]. intros EQ. left. split; congruence.
      * rewrite to_int_neq by auto. rewrite INF by auto. unfold names, look. intuition congruence.
  - destruct (mon_notify (bd_mon d) p Removed) as [mon cb]. destruct (remove_ok _ _ _ _ (to_int p) B) as (m' & ok & w' & E & SP & I'). rewrite E in ST. injection ST as <- <-.
    exists [RCode ok], w'. split; [econstructor; [exact SP|constructor]|]. inversion SP; subst; [|constructor; auto].
    constructor; cbn [bd_mgr bd_info]; auto.
    + apply erase_sorted. auto.
    + intros q n IN. apply erase_in in IN as [IN _]. eauto.
    + intros q n Q. rewrite erase_in, INF by auto. unfold names, look. cbn [w_ports]. rewrite find_filter. destruct (N.eq_dec q p) as [->|NE]; [rewrite Z.eqb_refl; split; [tauto|discriminate]|]. rewrite to_int_neq by auto. tauto.
  - injection ST as <- <-. exists [], w. split; [constructor|constructor; auto].
  - destruct (stats_ok _ _ _ _ (to_int p) clear B) as (m' & r & w' & E & SP & I'). rewrite E in ST. destruct r as [s|]; [|discriminate]. injection ST as <- <-.
    exists [RStats (Some s)], w'. split; [econstructor; [exact SP|constructor]|]. constructor; cbn [bd_mgr bd_info]; auto. intros q n Q. rewrite (names_other _ _ _ _ _ _ _ SP I). auto.
  - inversion LG as [|? ? ? L1 _]; subst. destruct (step_bmi _ _ _ _ _ B L1) as (m' & y & w' & E & SP & I'). rewrite E in ST.
    assert (NO : match o with BAdd _ _ _ | BRemove _ => False | _ => True end) by (destruct o; auto; discriminate).
    assert (ST' : Some (mkBD m' (bd_info d) (bd_mon d), DevOut y) = Some (d', x)) by (destruct o; auto; contradiction). injection ST' as <- <-.
    exists [y], w'. split; [econstructor; [exact SP|constructor]|]. constructor; cbn [bd_mgr bd_info]; auto. intros q n Q. rewrite (names_other _ _ _ _ _ _ _ SP NO). auto.
Qed.
Lemma legals_app max sock : forall a w b, legals max sock w (a ++ b) -> legals max sock w a /\ forall xs w', bspecs max sock w a xs w' -> legals max sock w' b.
Proof.
  induction a as [|o a IH]; intros w b LG; cbn in *; [split; [constructor|]; intros xs w' SP; inversion SP; subst; auto|].
  inversion LG as [|? ? ? L1 L2]; subst. split; [constructor; auto; intros x w1 SP; apply (IH w1 b); eauto|]. intros xs w' SP. inversion SP; subst. eapply IH; eauto.
Qed.
Lemma dev_run max sock : forall ops d w d' xs, dinv max sock d w -> Forall small_op ops -> legals max sock w (flat_map under ops) -> bd_run d ops = Some (d', xs) -> exists w', dinv max sock d' w'.
Proof.
  induction ops as [|o ops IH]; intros d w d' xs I SM LG R; cbn [bd_run] in R; [injection R as <- <-; eauto|]. inversion SM as [|? ? SM1 SM2]; subst. cbn [flat_map] in LG. apply legals_app in LG as [L1 L2].
  destruct (bd_step d o) as [[d1 x]|] eqn:ST; [|discriminate]. destruct (bd_run d1 ops) as [[d2 ys]|] eqn:R2; [|discriminate]. injection R as <- <-.
  destruct (dev_step _ _ _ _ _ _ _ I SM1 L1 ST) as (zs & w1 & SP & I1). eapply IH; eauto.
Qed.

(** ** destroying the manager *)
Lemma remove_live max sock m w live tl l1 p l2 : inv max sock m w live tl -> live = l1 ++ slot_of p :: l2 ->
  exists m' w' t, b_remove m (p_num p) = Some (m', true) /\ inv max sock m' w' (l1 ++ l2) t.
Proof.
  intros I E. assert (IN : In p (w_ports w) \/ True) by auto. destruct (remove_ok max sock m w (p_num p) (ex_intro _ live (ex_intro _ tl I))) as (m' & ok & w' & R & SP & (live' & tl' & I')).
  unfold b_remove in R. destruct (find_cases _ _ _ _ _ _ (p_num p) I) as [(i & a & q & b & F & E2 & L & N & LK)|(i & a & b & F & E2 & L & LK & LO & HI)].
  2:{ exfalso. assert (X : In (slot_of p) live) by (rewrite E; apply in_or_app; right; left; auto). rewrite E2 in X. apply in_app_or in X as [X|X]; [specialize (LO _ X)|specialize (HI _ X)]; cbn in *; lia. }
  assert (SPL : a = l1 /\ b = l2).
  { assert (ND := asc_nodup _ (i_asc _ _ _ _ _ _ I)). assert (E3 := E2). rewrite E in E3. rewrite E in ND. clear - E3 ND N. revert a E3. induction l1 as [|x l1 IH]; intros [|y a] E3; cbn in *; auto.
    - injection E3. auto.
    - exfalso. injection E3 as <- E4. inversion ND; subst. apply H1. rewrite map_app. cbn. apply in_or_app. right. left. auto.
    - exfalso. injection E3 as -> E4. inversion ND; subst. apply H1. rewrite map_app. cbn. apply in_or_app. right. left. auto.
    - injection E3 as -> E4. inversion ND; subst. destruct (IH H2 a E4). subst. auto. }
  destruct SPL as [-> ->]. assert (OK : ok = true) by (rewrite F in R; destruct (nth_error (b_ports m) i); [|discriminate]; destruct (memmove (b_ports m) i (i + 1) (b_count m - i - 1)); [|discriminate]; injection R; auto).
  exists m', w'. exists tl'. subst ok. split; [unfold b_remove; exact R|]. enough (live' = l1 ++ l2) by (subst live'; exact I').
  rewrite F in R. assert (NE : nth_error (b_ports m) i = Some (slot_of q)) by (rewrite (i_ports _ _ _ _ _ _ I), E2, <- app_assoc; cbn [app]; rewrite nth_error_app2, L, Nat.sub_diag by lia; auto). rewrite NE in R.
  assert (CT : b_count m - i - 1 = length l2) by (rewrite (i_count _ _ _ _ _ _ I), E2, app_length; cbn; lia). rewrite CT in R.
  rewrite (i_ports _ _ _ _ _ _ I), E2, <- app_assoc in R. cbn [app] in R. rewrite <- L in R. destruct (move_down l1 (slot_of q) l2 tl) as (t0 & MV). rewrite MV in R. injection R as <-.
  assert (P := i_ports _ _ _ _ _ _ I'). assert (C := i_count _ _ _ _ _ _ I'). cbn [b_ports b_count] in P, C. rewrite (i_count _ _ _ _ _ _ I), E2, app_length in C. cbn [length] in C.
  assert (LL : length live' = length (l1 ++ l2)) by (rewrite app_length; lia). apply (f_equal (firstn (length live'))) in P. rewrite (firstn_len live') in P by auto. rewrite app_assoc, LL, firstn_len in P by auto. auto.
Qed.
Lemma destroy_ok max sock : forall fuel m w l1 l2 tl, inv max sock m w (l1 ++ l2) tl -> length l2 <= fuel ->
  exists m' w' tl', destroy_loop fuel m (length l1) = Some m' /\ inv max sock m' w' (l1 ++ every_other l2) tl'.
Proof.
  induction fuel as [|f IH]; intros m w l1 l2 tl I LF.
  - destruct l2; [|cbn in LF; lia]. cbn [destroy_loop]. rewrite (i_count _ _ _ _ _ _ I), app_length. cbn [length]. rewrite (proj2 (Nat.ltb_ge _ _)) by lia. cbn [every_other]. eauto.
  - cbn [destroy_loop]. rewrite (i_count _ _ _ _ _ _ I), app_length. destruct l2 as [|s l2]; [cbn [length]; rewrite (proj2 (Nat.ltb_ge _ _)) by lia; cbn [every_other]; eauto|].
    cbn [length] in *. rewrite (proj2 (Nat.ltb_lt _ _)) by lia. rewrite (i_ports _ _ _ _ _ _ I), <- app_assoc, nth_error_app2, Nat.sub_diag by lia. cbn [nth_error app].
    assert (IN : In s (map slot_of (w_ports w))) by (apply (Permutation_in _ (i_perm _ _ _ _ _ _ I)); apply in_or_app; right; left; auto). apply in_map_iff in IN as (p & <- & _). cbn [sl_num slot_of].
    destruct (remove_live _ _ _ _ _ _ l1 p l2 I eq_refl) as (m1 & w1 & t1 & -> & I1). destruct l2 as [|y l2].
    + cbn [every_other]. assert (Z0 := i_count _ _ _ _ _ _ I1). rewrite app_nil_r in *. destruct f; cbn [destroy_loop]; rewrite Z0, (proj2 (Nat.ltb_ge _ _)) by lia; eauto.
    + cbn [every_other]. replace (length l1 + 1) with (length (l1 ++ [y])) by (rewrite app_length; auto). replace (l1 ++ y :: every_other l2) with ((l1 ++ [y]) ++ every_other l2) by (rewrite <- app_assoc; auto).
      eapply IH; [|cbn in LF; lia]. rewrite <- app_assoc. exact I1.
Qed.

Lemma bspec_fun max sock w o x w1 w2 : bspec max sock w o x w1 -> bspec max sock w o x w2 -> w1 = w2.
Proof. intros A B. inversion A; subst; inversion B; subst; auto; congruence. Qed.
Lemma bspecs_fun max sock : forall ops w xs w1 w2, bspecs max sock w ops xs w1 -> bspecs max sock w ops xs w2 -> w1 = w2.
Proof. induction ops as [|o ops IH]; intros w xs w1 w2 A B; inversion A; subst; inversion B; subst; auto. assert (w4 = w3) by (eapply bspec_fun; eauto). subst. eauto. Qed.
