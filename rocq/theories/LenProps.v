(** C61: the packet length simple_switch reports. *)
From Coq Require Import List Arith ZArith Bool Lia.
From Verif Require Import Base Bits DeparseModel PhvModel PhvSpec PhvProofs PhvProofs2 PhvProps LenModel LenSpec LenProofs.
Import ListNotations.

(** The register changes by exactly as many bytes as the headers of the packet. *)
Theorem C61_length : forall (legacy : bool) d s len l, wf d -> reach legacy d s -> Forall (op_ok d) l -> kept_all legacy d s l -> (0 <= len < 2 ^ 64)%Z ->
  exists s' len', len_run legacy d (s, len) l = Some (s', len') /\ run legacy d s l = Some s' /\ (len' = (len + Z.of_nat (size d s') - Z.of_nat (size d s)) mod 2 ^ 64)%Z.
Proof.
  intros legacy d s len l W R OK K RL. destruct (run_exact legacy d l W OK s len (reach_INV _ _ _ W R) K RL) as (s' & len' & A & B & _ & E). exists s', len'. split; auto. split; auto. rewrite E. unfold wrap64. f_equal. lia.
Qed.
Print Assumptions C61_length.

(** A length that is right at the end of the parser is the length of the packet the deparser makes. *)
Theorem C61_deparsed : forall (legacy : bool) d s len l s' len' hs old payload s2 out, wf d -> reach legacy d s -> Forall (op_ok d) l -> kept_all legacy d s l -> emits_all d hs -> bytes_ok old -> bytes_ok payload ->
  len = Z.of_nat (size d s + length payload) -> (len < 2 ^ 64)%Z -> len_run legacy d (s, len) l = Some (s', len') -> deparse legacy d [] [] hs old payload s' = Some (s2, out) ->
  (Z.of_nat (length out) < 2 ^ 64)%Z -> len' = Z.of_nat (length out).
Proof.
  intros legacy d s len l s' len' hs old payload s2 out W R OK K EA BO BP EL LT LR D LO. destruct (run_exact legacy d l W OK s len (reach_INV _ _ _ W R) K) as (s1 & len1 & A & B & I & E); [lia|].
  rewrite A in LR. injection LR as -> ->. rewrite (deparse_length _ _ _ _ _ _ _ _ W (reach_run _ _ _ _ _ R OK B) BO BP EA D) in *. rewrite E. unfold wrap64. rewrite Z.mod_small; lia.
Qed.
Print Assumptions C61_deparsed.

(** The property for one operation of a kind *)
Definition exact_for (P : op -> Prop) : Prop := forall (legacy : bool) d s len o s' len', wf d -> reach legacy d s -> op_ok d o -> P o -> (0 <= len < 2 ^ 64)%Z ->
  len_step legacy d (s, len) o = Some (s', len') -> (len' = (len + Z.of_nat (size d s') - Z.of_nat (size d s)) mod 2 ^ 64)%Z.
Lemma not_exact (P : op -> Prop) pre o : Forall (op_ok ex_d) pre -> op_ok ex_d o -> P o ->
  match run false ex_d (create ex_d) pre with Some s => match len_step false ex_d (s, 1000%Z) o with Some (s', len') => (len' =? (1000 + Z.of_nat (size ex_d s') - Z.of_nat (size ex_d s)) mod 2 ^ 64)%Z = false | None => False end | None => False end -> ~ exact_for P.
Proof.
  intros OK OO PO M X. destruct (run false ex_d (create ex_d) pre) as [s|] eqn:R; [|contradiction]. destruct (len_step false ex_d (s, 1000%Z) o) as [[s' len']|] eqn:L; [|contradiction].
  assert (RS : reach false ex_d s) by (exists pre; split; auto). rewrite (proj2 (Z.eqb_eq _ _) (X false ex_d s 1000%Z o s' len' ex_wf RS OO PO ltac:(lia) L)) in M. discriminate.
Qed.
(** copy_header and assign_header leave the length as it was when they make a header valid or invalid. *)
Theorem C61_copy_refuted : ~ exact_for (fun o => match o with OAssign _ _ => True | _ => False end).
Proof. apply (not_exact _ [OAdd 0] (OAssign 1 0)); auto; [repeat constructor; cbn; lia|exists (ex_t 8), (ex_t 8); auto|vm_compute; reflexivity]. Qed.
(** add_header_fast leaves the length as it was. *)
Theorem C61_add_fast_refuted : ~ exact_for (fun o => match o with OAddFast _ => True | _ => False end).
Proof. apply (not_exact _ [] (OAddFast 0)); auto; [cbn; lia|vm_compute; reflexivity]. Qed.
(** Popping a header off a stack leaves the length as it was. *)
Theorem C61_pop_refuted : ~ exact_for (fun o => match o with OPop _ _ => True | _ => False end).
Proof. apply (not_exact _ [OAdd 0] (OPop 0 1)); auto; [repeat constructor; cbn; lia|cbn; lia|vm_compute; reflexivity]. Qed.
(** Pushing headers onto a full stack loses headers and leaves the length as it was. *)
Theorem C61_push_refuted : ~ exact_for (fun o => match o with OPush _ _ => True | _ => False end).
Proof. apply (not_exact _ [OAdd 2] (OPush 0 1)); auto; [repeat constructor; cbn; lia|cbn; eexists; split; [reflexivity|discriminate]|vm_compute; reflexivity]. Qed.
(** Adding a member of a union removes the other members and does not subtract their length. *)
Theorem C61_union_refuted : ~ exact_for (fun o => match o with OAdd _ => True | _ => False end).
Proof. apply (not_exact _ [OAdd 3] (OAdd 4)); auto; [repeat constructor; cbn; lia|cbn; lia|vm_compute; reflexivity]. Qed.
(** Removing a metadata header subtracts its length, every time. *)
Theorem C61_metadata_refuted : ~ exact_for (fun o => match o with ORemove _ => True | _ => False end).
Proof. apply (not_exact _ [] (ORemove 8)); auto; [cbn; lia|vm_compute; reflexivity]. Qed.
Print Assumptions C61_copy_refuted.
Print Assumptions C61_add_fast_refuted.
Print Assumptions C61_pop_refuted.
Print Assumptions C61_push_refuted.
Print Assumptions C61_union_refuted.
Print Assumptions C61_metadata_refuted.

(** A packet of 100 bytes with one header of 3 bytes: one of 1 byte and one of 4 are added, the second twice, and the first is removed *)
Definition ln_ops : list op := [OAdd 0; OAdd 7; OSet 7 0 200; ORemove 0; OAdd 4; OAdd 4; OResetMeta].
Example C61_ex_run : exists s, reach false ex_d s /\ Forall (op_ok ex_d) ln_ops /\ kept_all false ex_d s ln_ops /\ option_map snd (len_run false ex_d (s, 100%Z) ln_ops) = Some 102%Z.
Proof.
  destruct (run false ex_d (create ex_d) [OAdd 0]) as [s|] eqn:E; [|vm_compute in E; discriminate E]. exists s. split; [exists [OAdd 0]; split; [repeat constructor; cbn; lia|exact E]|].
  vm_compute in E. inversion E; subst s; clear E. split; [repeat constructor; cbn; try lia; exists (mk_hdesc false 1 [Some 8; None]); cbn; auto|]. split; [|vm_compute; reflexivity].
  assert (NM : ~ meta ex_d 0) by (intros M; apply ex_meta in M; discriminate).
  assert (SB : forall h k, siblings ex_d h k -> (h = 3 /\ k = 4) \/ (h = 4 /\ k = 3) \/ (h = 5 /\ k = 6) \/ (h = 6 /\ k = 5)).
  { intros h k (u & i & j & A & B & N). apply ex_member in A, B. intuition congruence. }
  unfold ln_ops. repeat (cbn [kept_all]; split; [cbn [kept]; auto; intros k x S X; apply SB in S; exfalso + (assert (k = 3) as -> by lia; vm_compute in X; inversion X; reflexivity); lia|intros s1 S; vm_compute in S; inversion S; subst s1; clear S]).
  exact Logic.I.
Qed.
