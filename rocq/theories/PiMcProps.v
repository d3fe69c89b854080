(** C66: the ports of multicast nodes set through P4Runtime. *)
From Coq Require Import List Arith NArith Bool Lia.
From Verif Require Import Base NMap HandleMgrModel PreModel PiMcModel PiMcSpec PiMcProofs.
Import ListNotations.

(** When every port is below 512 and the ports are given in ascending order, the node gets exactly these ports; whatever the order, it does exactly when every port is given at a place after which no smaller port follows. *)
Theorem C66_ports : forall ports, supported ports -> exists m, convert_map ports = Some m /\ length m = 512 /\
  (ascending ports -> has_exactly m ports) /\
  (has_exactly m ports <-> forall p, In p ports -> unshadowed ports p).
Proof.
  intros ports SU. destruct (convert_small ports SU) as (m & C & L & N). exists m. split; auto. split; auto.
  assert (X : has_exactly m ports <-> forall p, In p ports -> unshadowed ports p).
  { split.
    - intros H p IN. apply N. apply H. auto.
    - intros H p. rewrite N. split; [apply unshadowed_in|apply H]. }
  split; auto. intros A. apply X. intros p. apply ascending_unshadowed. auto.
Qed.
Print Assumptions C66_ports.

(** For every list of 32-bit ports: when the greatest 32-bit number is among them the behaviour is undefined; otherwise bit i of the map says whether port i plus the excess of the last port over 511 is given at a place after which no smaller port follows. *)
Theorem C66_map : forall ports,
  ((exists p, In p ports /\ N.of_nat p = 4294967295%N) -> convert_map ports = None) /\
  ((forall p, In p ports -> N.of_nat p <> 4294967295%N) ->
   exists m, convert_map ports = Some m /\ length m = 512 /\ forall i, i < 512 -> (nth i m false = true <-> unshadowed ports (i + (last ports 0 + 1 - 512)))).
Proof. intros ports. split; [intros H; unfold convert_map; rewrite fill_top; auto|apply convert_ok]. Qed.
Print Assumptions C66_map.

(** Every history of calls whose ports are below 512 and ascending acts on the replication engine exactly as the calls the caller means. *)
Theorem C66_history : forall mg_max l1_max l2_max lag_max hash ops s,
  (forall o, In o ops -> supported (ports_of o) /\ ascending (ports_of o)) ->
  exists pops, Forall2 meant ops pops /\ mc_run mg_max l1_max l2_max lag_max hash s ops = p_run mg_max l1_max l2_max lag_max hash s pops.
Proof.
  intros mg_max l1_max l2_max lag_max hash. induction ops as [|o ops IH]; intros s H; [exists []; split; auto|].
  assert (M : exists p, mc_op o = Some p /\ meant o p).
  { destruct (H o (or_introl eq_refl)) as [SU AS]. destruct o; cbn [mc_op ports_of] in *; try (eexists; split; [reflexivity|constructor]; fail); destruct (C66_ports _ SU) as (m & -> & _ & X & _); eexists; (split; [reflexivity|constructor; auto]). }
  destruct M as (p & E & M). cbn [mc_run]. rewrite E. destruct (p_step mg_max l1_max l2_max lag_max hash s p) as [[s1 x]|] eqn:ST.
  - destruct (IH s1 (fun o' IN => H o' (or_intror IN))) as (pops & F & R). exists (p :: pops). split; [constructor; auto|]. cbn [p_run]. rewrite ST, R. auto.
  - destruct (IH s (fun o' IN => H o' (or_intror IN))) as (pops & F & R). exists (p :: pops). split; [constructor; auto|]. cbn [p_run]. rewrite ST. auto.
Qed.
Print Assumptions C66_history.

(** A port given before a smaller one is dropped from the node. *)
Theorem C66_order_refuted : ~ (forall ports, supported ports -> exists m, convert_map ports = Some m /\ has_exactly m ports).
Proof.
  intros H. destruct (H [2; 1]) as (m & C & E); [intros p [<-|[<-|[]]]; lia|]. assert (SU : supported [2; 1]) by (intros p [<-|[<-|[]]]; lia).
  destruct (convert_small _ SU) as (m' & C' & _ & N). rewrite C in C'. injection C' as <-. destruct (proj1 (N 2) (proj2 (E 2) (or_introl eq_refl))) as (l1 & l2 & X & Y).
  destruct l1 as [|a [|b [|c l1]]]; try discriminate. injection X as <-. specialize (Y 1 (or_introl eq_refl)). lia.
Qed.
Print Assumptions C66_order_refuted.

(** A port of 512 or more is not ignored: all the ports of the node are shifted, and packets go out of ports that were not given. *)
Theorem C66_shift_refuted : ~ (forall ports m p, ascending ports -> convert_map ports = Some m -> nth p m false = true -> In p ports).
Proof.
  intros H. assert (T : forall p, In p [100; 600] -> N.of_nat p <> 4294967295%N) by (intros p [<-|[<-|[]]]; lia). destruct (proj2 (C66_map [100; 600]) T) as (m & C & L & N).
  assert (X : In 511 [100; 600]).
  { apply (H _ m); auto; [cbn; intuition; subst; lia|]. apply N; [lia|]. exists [100], []. split; [cbn [last]; replace (511 + (600 + 1 - 512)) with 600 by lia; auto|]. intros q []. }
  destruct X as [X|[X|[]]]; lia.
Qed.
Print Assumptions C66_shift_refuted.

(** A node with ports 1 and 3 in a group: a packet of the group is copied to these two. *)
Example C66_packet : option_map snd (mc_run 4 4 4 4 0 pre_empty [MGrpCreate 7; MNodeCreate 9 [1; 3]; MAttach 7 0; MPacket 7; MNodeModify 0 [3; 1]; MPacket 7]) =
  Some [POk; PHandle 0; POk; PCopies [(9, 1); (9, 3)]; POk; PCopies [(9, 1)]].
Proof. vm_compute. reflexivity. Qed.
Example C66_good : supported [1; 3; 3; 511] /\ ascending [1; 3; 3; 511].
Proof. split; [intros p; cbn; intuition; subst; lia|cbn; intuition; subst; lia]. Qed.
