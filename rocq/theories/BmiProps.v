(** C64: the BMI port manager. *)
From Coq Require Import List Arith NArith ZArith Bool Sorted Permutation Lia.
From Verif Require Import PortMonModel DevMgrModel BmiModel BmiSpec BmiProofs BmiProofs2.
Import ListNotations.

(** For every history of calls, the sorted array of ports is a set of ports: adding, removing, sending, receiving and the statistics are those of the port named. *)
Theorem C64_manager : forall max sock ops, legals max sock w_new ops ->
  exists m xs w, b_run (b_new max sock) ops = Some (m, xs) /\ bspecs max sock w_new ops xs w.
Proof. intros max sock ops LG. destruct (run_bmi max sock ops _ _ (inv_new max sock) LG) as (m & xs & w & R & S & _). eauto 6. Qed.
Print Assumptions C64_manager.

Definition bd_new (max : nat) (sock : N) : bdev := mkBD (b_new max sock) [] [].
(** get_port_info lists, in ascending order, exactly the ports that the manager has, with the names of their interfaces. *)
Theorem C64_info : forall max sock ops d xs l, Forall small_op ops -> legals max sock w_new (flat_map under ops) ->
  bd_run (bd_new max sock) (ops ++ [DevInfo]) = Some (d, xs ++ [DevPorts l]) ->
  StronglySorted N.lt (map fst l) /\ forall p, (p < 2 ^ 32)%N -> exists r, bd_step d (DevOther (BIfname (to_int p))) = Some (d, DevOut (RName r)) /\ forall n, In (p, n) l <-> r = Some n.
Proof.
  intros max sock ops d xs l SM LG R.
  assert (APP : forall a b d0, bd_run d0 (a ++ b) = match bd_run d0 a with Some (d1, x1) => match bd_run d1 b with Some (d2, x2) => Some (d2, x1 ++ x2) | None => None end | None => None end).
  { clear. induction a as [|o a IH]; intros b d0; cbn; [destruct (bd_run d0 b) as [[]|]; auto|]. destruct (bd_step d0 o) as [[d1 x]|]; auto. rewrite IH. destruct (bd_run d1 a) as [[d2 y]|]; auto. destruct (bd_run d2 b) as [[]|]; auto. }
  rewrite APP in R. destruct (bd_run (bd_new max sock) ops) as [[d1 x1]|] eqn:R1; [|discriminate]. cbn [bd_run bd_step] in R. injection R as <- E. apply app_inj_tail in E as [_ E]. injection E as <-.
  assert (I0 : dinv max sock (bd_new max sock) w_new) by (constructor; cbn; [apply inv_new|constructor|contradiction|intros; cbn; split; [contradiction|discriminate]]).
  destruct (dev_run max sock ops _ _ _ _ I0 SM LG R1) as (w & [B S _ INF]). split; auto. intros p P. cbn [bd_step b_step]. rewrite (ifname_ok _ _ _ _ (to_int p) B). eexists. split; [destruct d1; reflexivity|]. intros n. apply INF. auto.
Qed.
Print Assumptions C64_info.

(** Destroying the manager closes only every other port (in ascending order): the first, the third, and so on. *)
Theorem C64_destroy : forall max sock ops m xs w, legals max sock w_new ops -> b_run (b_new max sock) ops = Some (m, xs) -> bspecs max sock w_new ops xs w ->
  exists all, StronglySorted Z.lt all /\ Permutation all (map p_num (w_ports w)) /\ b_destroy m = Some (every_other all).
Proof.
  intros max sock ops m xs w LG R S. destruct (run_bmi max sock ops _ _ (inv_new max sock) LG) as (m' & xs' & w' & R' & S' & (live & tl & I)). rewrite R in R'. injection R' as <- <-. assert (w' = w) by (eapply bspecs_fun; eauto). subst w'.
  exists (map sl_num live). split; [apply (i_asc _ _ _ _ _ _ I)|]. split.
  - assert (P := Permutation_map sl_num (i_perm _ _ _ _ _ _ I)). rewrite map_map in P. exact P.
  - unfold b_destroy. destruct (destroy_ok max sock (b_count m) m w [] live tl I) as (m2 & w2 & tl2 & D & I2); [rewrite (i_count _ _ _ _ _ _ I); auto|]. cbn [length] in D. rewrite D. f_equal.
    rewrite (i_ports _ _ _ _ _ _ I2), (i_count _ _ _ _ _ _ I2), firstn_len by auto. cbn [app].
    assert (G : forall n (l : list slot), length l <= n -> map sl_num (every_other l) = every_other (map sl_num l)); [|apply (G (length live)); auto].
    clear. induction n as [|n IH]; intros [|x [|y l]] L; cbn in *; auto; try lia. rewrite IH by lia. auto.
Qed.
Print Assumptions C64_destroy.

Definition three : list bop := [BAdd 2 70 (Some 10%N); BAdd 1 71 (Some 11%N); BAdd 3 72 (Some 12%N)].
Lemma three_legal : legals 4 5 w_new three.
Proof.
  constructor; [cbn; repeat split; auto; try lia; contradiction|]. intros x w1 S1. inversion S1 as [n nm fd A B|n nm c A| | | | | | | | | | | | ]; subst; [|destruct A as [H|[H|H]]; [contradiction|cbn in H; lia|discriminate]].
  constructor; [cbn; repeat split; auto; try lia; intros p [<-|[]]; discriminate|]. intros x w2 S2. inversion S2 as [n nm fd A2 B2|n nm c A2| | | | | | | | | | | | ]; subst; [|destruct A2 as [H|[H|H]]; [contradiction|cbn in H; lia|discriminate]].
  constructor; [cbn; repeat split; auto; try lia; intros p [<-|[<-|[]]]; discriminate|]. intros x w3 S3. constructor.
Qed.
(** Destroying a manager with more than one port does not close them all. *)
Theorem C64_destroy_refuted : ~ (forall max sock ops m xs, legals max sock w_new ops -> b_run (b_new max sock) ops = Some (m, xs) -> b_destroy m = Some []).
Proof. intros H. destruct (b_run (b_new 4 5) three) as [[m xs]|] eqn:R; [|vm_compute in R; discriminate]. specialize (H 4 5%N three m xs three_legal R). vm_compute in R. injection R as <- <-. vm_compute in H. discriminate. Qed.
Print Assumptions C64_destroy_refuted.
(** The statistics of a port that does not exist are read from an uninitialised variable. *)
Theorem C64_stats_refuted : ~ (forall max sock p clear, bd_run (bd_new max sock) [DevStats p clear] <> None).
Proof. intros H. apply (H 4 5%N 1%N false). reflexivity. Qed.
Print Assumptions C64_stats_refuted.
(** A port that could not be added is announced as added, and a later successful add is not. *)
Theorem C64_failed_add_refuted : ~ (forall max sock ops d xs p name cr d' cb ok, bd_run (bd_new max sock) ops = Some (d, xs) -> bd_step d (DevAdd p name cr) = Some (d', DevCode cb ok) -> (ok = true <-> In (OCb p Added) cb)).
Proof.
  intros H. destruct (H 4 5%N [] (bd_new 4 5) [] 1%N 70%N None _ _ _ eq_refl eq_refl) as [_ B]. specialize (B (or_introl eq_refl)). discriminate.
Qed.
Print Assumptions C64_failed_add_refuted.
(** A descriptor of 1024 or more is stored outside the fd_set. *)
Theorem C64_fdset_refuted : ~ (forall max sock n name fd, b_step (b_new max sock) (BAdd n name (Some fd)) <> None).
Proof. intros H. apply (H 4 5%N 1%Z 70%N 1024%N). vm_compute. reflexivity. Qed.
Print Assumptions C64_fdset_refuted.

Example C64_ex_history : exists m, b_run (b_new 4 5)
  (three ++ [BAdd 2 73 (Some 13%N); BHandler; BPass [12; 10]%N (fun fd => if (fd =? 10)%N then Some [1; 2; 3]%N else Some [4]%N); BSend 2 [9; 9]%N true; BStats 2 true; BStats 2 false; BRemove 1; BSend 1 [] true; BIfname 3; BWatch])
  = Some (m, [RCode true; RCode true; RCode true; RCode false; RCode true; RGot [(2, [1; 2; 3]%N); (3, [4]%N)]%Z; RSent (Some 10%N) true; RStats (Some (mkStats 1 3 1 2)); RStats (Some (mkStats 0 0 0 0)); RCode true; RSent None false; RName (Some 72%N); RWatch [12; 10; 5]%N 13]).
Proof. eexists. vm_compute. reflexivity. Qed.
Example C64_ex_destroy : match b_run (b_new 4 5) three with Some (m, _) => b_destroy m = Some [2%Z] | None => False end.
Proof. vm_compute. reflexivity. Qed.
Example C64_ex_legal : legals 4 5 w_new three.
Proof. exact three_legal. Qed.
