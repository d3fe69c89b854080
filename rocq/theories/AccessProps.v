(** C42: the packed per-packet attributes of simple_switch do not interfere. *)
From Coq Require Import List Arith NArith Bool Lia.
From Verif Require Import Base PhvModel AccessModel AccessSpec.
Import ListNotations.
Local Open Scope N_scope.

Definition mask_at (s : N) : N := N.shiftl (N.ones 16) s.
Lemma mask_at_spec s i : N.testbit (mask_at s) i = (s <=? i) && (i <? s + 16).
Proof.
  unfold mask_at. destruct (s <=? i) eqn:E; [apply N.leb_le in E|apply N.leb_gt in E].
  - rewrite N.shiftl_spec_high' by exact E. cbn [andb]. destruct (i <? s + 16) eqn:F; [apply N.ltb_lt in F; apply N.ones_spec_low; lia|apply N.ltb_ge in F; apply N.ones_spec_high; lia].
  - rewrite N.shiftl_spec_low by exact E. reflexivity.
Qed.
Lemma ones_spec n i : N.testbit (N.ones n) i = (i <? n).
Proof. destruct (i <? n) eqn:E; [apply N.ltb_lt in E; apply N.ones_spec_low; exact E|apply N.ltb_ge in E; apply N.ones_spec_high; exact E]. Qed.
Lemma mod_spec x n i : N.testbit (x mod 2 ^ n) i = (i <? n) && N.testbit x i.
Proof. destruct (i <? n) eqn:E; [apply N.ltb_lt in E; rewrite N.mod_pow2_bits_low by exact E; reflexivity|apply N.ltb_ge in E; rewrite N.mod_pow2_bits_high by exact E; reflexivity]. Qed.

Definition fget (rv s : N) : N := u16 (N.shiftr (N.land rv (mask_at s)) s).
Definition fset (rv s v : N) : N := N.lor (N.land rv (not64 (mask_at s))) (shl64 v s).
Lemma fset_bits rv s v i : s <= 48 -> N.testbit (fset rv s (u16 v)) i = if (s <=? i) && (i <? s + 16) then N.testbit v (i - s) else (i <? 64) && N.testbit rv i.
Proof.
  intros Hs. unfold fset, not64, shl64, u16. rewrite N.lor_spec, N.land_spec, N.lxor_spec, mask_at_spec, ones_spec, mod_spec.
  destruct (s <=? i) eqn:E; [apply N.leb_le in E|apply N.leb_gt in E]; cbn [andb].
  - rewrite N.shiftl_spec_high' by exact E. rewrite mod_spec.
    destruct (i <? s + 16) eqn:F; [apply N.ltb_lt in F|apply N.ltb_ge in F].
    + replace (i <? 64) with true by (symmetry; apply N.ltb_lt; lia). replace (i - s <? 16) with true by (symmetry; apply N.ltb_lt; lia).
      cbn [xorb andb]. rewrite andb_false_r. reflexivity.
    + replace (i - s <? 16) with false by (symmetry; apply N.ltb_ge; lia). rewrite andb_false_l, andb_false_r, orb_false_r. destruct (i <? 64); cbn; rewrite ?andb_true_r, ?andb_false_r; reflexivity.
  - rewrite N.shiftl_spec_low by exact E. rewrite andb_false_r, orb_false_r. destruct (i <? 64); cbn; rewrite ?andb_true_r, ?andb_false_r; reflexivity.
Qed.
Lemma fget_bits rv s j : N.testbit (fget rv s) j = (j <? 16) && N.testbit rv (j + s).
Proof.
  unfold fget, u16. rewrite mod_spec. destruct (j <? 16) eqn:E; [|reflexivity]. apply N.ltb_lt in E. cbn [andb].
  rewrite N.shiftr_spec', N.land_spec, mask_at_spec. replace (s <=? j + s) with true by (symmetry; apply N.leb_le; lia).
  replace (j + s <? s + 16) with true by (symmetry; apply N.ltb_lt; lia). apply andb_true_r.
Qed.
Lemma fget_fset_same rv s v : s <= 48 -> fget (fset rv s (u16 v)) s = v mod 2 ^ 16.
Proof.
  intros Hs. apply N.bits_inj. intros j. rewrite fget_bits, fset_bits, mod_spec by exact Hs. destruct (j <? 16) eqn:E; [|reflexivity]. apply N.ltb_lt in E.
  replace (s <=? j + s) with true by (symmetry; apply N.leb_le; lia). replace (j + s <? s + 16) with true by (symmetry; apply N.ltb_lt; lia).
  cbn [andb]. rewrite N.add_sub. reflexivity.
Qed.
Lemma fget_fset_other rv s s' v : s <= 48 -> s' <= 48 -> (s + 16 <= s' \/ s' + 16 <= s) -> fget (fset rv s (u16 v)) s' = fget rv s'.
Proof.
  intros Hs Hs' Hd. apply N.bits_inj. intros j. rewrite !fget_bits, fset_bits by exact Hs. destruct (j <? 16) eqn:E; [|reflexivity]. apply N.ltb_lt in E. cbn [andb].
  replace (j + s' <? 64) with true by (symmetry; apply N.ltb_lt; lia).
  destruct Hd as [Hd|Hd].
  - replace (j + s' <? s + 16) with false by (symmetry; apply N.ltb_ge; lia). rewrite andb_false_r. reflexivity.
  - replace (s <=? j + s') with false by (symmetry; apply N.leb_gt; lia). reflexivity.
Qed.
Lemma fget_zero s : fget 0 s = 0.
Proof. apply N.bits_inj. intros j. rewrite fget_bits, !N.bits_0. apply andb_false_r. Qed.
Lemma fget_lt rv s : fget rv s < 2 ^ 16.
Proof. unfold fget, u16. apply N.mod_lt. discriminate. Qed.

(** The six values held by four registers *)
Definition held (a0 a1 a2 : N) (a : attr) : N :=
  match a with CloneSession => fget a1 0 | CloneFieldList => fget a1 16 | LfFieldList => fget a1 32 | Resubmit => fget a1 48 | Recirculate => fget a2 0 | PacketLength => a0 end.
Lemma get_held a0 a1 a2 a3 a : do_get [a0; a1; a2; a3] a = Some (held a0 a1 a2 a).
Proof. destruct a; reflexivity. Qed.
Lemma set_held a0 a1 a2 a3 a v : exists b0 b1 b2, do_set [a0; a1; a2; a3] a v = Some [b0; b1; b2; a3] /\
  forall b, held b0 b1 b2 b = if attr_eq_dec b a then v mod 2 ^ width a else held a0 a1 a2 b.
Proof.
  destruct a.
  - exists a0, (fset a1 0 (u16 v)), a2. split; [reflexivity|]. intros b. destruct b; cbn [held attr_eq_dec width]; first [apply fget_fset_same; lia|apply fget_fset_other; lia|reflexivity].
  - exists a0, (fset a1 16 (u16 v)), a2. split; [reflexivity|]. intros b. destruct b; cbn [held attr_eq_dec width]; first [apply fget_fset_same; lia|apply fget_fset_other; lia|reflexivity].
  - exists a0, (fset a1 32 (u16 v)), a2. split; [reflexivity|]. intros b. destruct b; cbn [held attr_eq_dec width]; first [apply fget_fset_same; lia|apply fget_fset_other; lia|reflexivity].
  - exists a0, (fset a1 48 (u16 v)), a2. split; [reflexivity|]. intros b. destruct b; cbn [held attr_eq_dec width]; first [apply fget_fset_same; lia|apply fget_fset_other; lia|reflexivity].
  - exists a0, a1, (fset a2 0 (u16 v)). split; [reflexivity|]. intros b. destruct b; cbn [held attr_eq_dec width]; first [apply fget_fset_same; lia|reflexivity].
  - exists (v mod 2 ^ 64), a1, a2. split; [reflexivity|]. intros b. destruct b; reflexivity.
Qed.

Lemma run_ok l : forall history a0 a1 a2 a3, a0 < 2 ^ 64 ->
  (forall a v, value a history = Some v -> held a0 a1 a2 a = v) ->
  exists r outs, a_run [a0; a1; a2; a3] l = Some (r, outs) /\ reads_ok history l outs.
Proof.
  induction l as [|o t IH]; intros h a0 a1 a2 a3 H0 HV; cbn [a_run].
  - exists [a0; a1; a2; a3], []. split; [reflexivity|exact I].
  - destruct o as [a v|a|].
    + destruct (set_held a0 a1 a2 a3 a v) as (b0 & b1 & b2 & E & HB). cbn [a_step]. rewrite E. cbn [bind fst snd].
      destruct (IH (OSet a v :: h) b0 b1 b2 a3) as (r & outs & ER & RO).
      * specialize (HB PacketLength). cbn [held] in HB. rewrite HB. destruct (attr_eq_dec PacketLength a) as [<-|]; [|exact H0]. apply N.mod_lt. discriminate.
      * intros b w. cbn [value]. rewrite HB. destruct (attr_eq_dec b a) as [->|]; [intros Q; injection Q as <-; reflexivity|apply HV].
      * exists r, (None :: outs). rewrite ER. split; [reflexivity|]. cbn [reads_ok]. split; [reflexivity|exact RO].
    + cbn [a_step]. rewrite get_held. cbn [bind fst snd].
      destruct (IH (OGet a :: h) a0 a1 a2 a3) as (r & outs & ER & RO); [exact H0|exact HV|].
      exists r, (Some (held a0 a1 a2 a) :: outs). rewrite ER. split; [reflexivity|]. cbn [reads_ok]. split; [|exact RO].
      exists (held a0 a1 a2 a). split; [reflexivity|]. split.
      * destruct a; cbn [held width]; first [exact H0|apply fget_lt].
      * destruct (value a h) as [w|] eqn:EV; [exact (HV a w EV)|exact I].
    + cbn [a_step]. change (clear_all [a0; a1; a2; a3]) with (Some [a0; 0; 0; a3]). cbn [bind fst snd].
      destruct (IH (OClear :: h) a0 0 0 a3) as (r & outs & ER & RO); [exact H0| |].
      * intros b w. cbn [value]. destruct b; cbn [held]; intros Q; try (injection Q as <-; apply fget_zero). exact (HV PacketLength w Q).
      * exists r, (None :: outs). rewrite ER. split; [reflexivity|]. cbn [reads_ok]. split; [reflexivity|exact RO].
Qed.

(** From any four registers, any sequence of operations completes, and every read returns the attribute's own last written value *)
Theorem C42_independent : forall r0 l, length r0 = 4%nat -> Forall (fun v => v < 2 ^ 64) r0 -> exists r outs, a_run r0 l = Some (r, outs) /\ reads_ok [] l outs.
Proof.
  intros r0 l HL HF. destruct r0 as [|a0 [|a1 [|a2 [|a3 [|a4 r]]]]]; try discriminate HL.
  inversion HF as [|? ? H0 HR]; subst. apply run_ok; [exact H0|]. intros a v E. cbn in E. discriminate.
Qed.
(** What clear_all leaves alone *)
Theorem C42_clear_keeps_length : forall r0 l n, length r0 = 4%nat -> Forall (fun v => v < 2 ^ 64) r0 ->
  exists r, a_run r0 (l ++ [OSet PacketLength n; OClear; OGet PacketLength]) = Some r /\ last (snd r) None = Some (n mod 2 ^ 64).
Proof.
  intros r0 l n HL HF. destruct (C42_independent r0 (l ++ [OSet PacketLength n; OClear; OGet PacketLength]) HL HF) as (r & outs & E & R).
  exists (r, outs). split; [exact E|]. cbn [snd].
  assert (G : forall l h outs, reads_ok h (l ++ [OSet PacketLength n; OClear; OGet PacketLength]) outs -> last outs None = Some (n mod 2 ^ 64)).
  { clear. induction l as [|o t IH]; intros h outs R.
    - cbn [app reads_ok] in R. destruct outs as [|o1 [|o2 [|o3 [|o4 r]]]]; try tauto. destruct R as (_ & _ & (v & -> & _ & Hv) & _). cbn [value attr_eq_dec] in Hv. cbn in Hv. cbn [last]. rewrite Hv. reflexivity.
    - cbn [app reads_ok] in R. destruct outs as [|o1 outs]; [tauto|]. destruct R as [_ R]. specialize (IH _ _ R). destruct outs as [|o2 outs]; [discriminate IH|exact IH]. }
  exact (G l [] outs R).
Qed.
(** Without a clear_all, the value of an unwritten attribute is whatever the memory held: simple_switch must clear, as it does at 245, 465, 553, 604, 710, 750 *)
Theorem C42_uninitialised : forall a w, w < 2 ^ width a -> exists r0, length r0 = 4%nat /\ Forall (fun v => v < 2 ^ 64) r0 /\ do_get r0 a = Some w.
Proof.
  intros a w Hw. destruct (set_held 0 0 0 0 a w) as (b0 & b1 & b2 & E & HB).
  exists (map (fun x => x mod 2 ^ 64) [b0; b1; b2; 0]). split; [reflexivity|]. split.
  { apply Forall_forall. intros x Hx. apply in_map_iff in Hx as [y [<- _]]. apply N.mod_lt. discriminate. }
  cbn [map]. rewrite get_held. f_equal. specialize (HB a). destruct (attr_eq_dec a a) as [_|N]; [|exfalso; apply N; reflexivity].
  rewrite N.mod_small in HB by exact Hw. rewrite <- HB.
  assert (G : forall x s, s <= 48 -> fget (x mod 2 ^ 64) s = fget x s).
  { intros x s Hs. apply N.bits_inj. intros j. rewrite !fget_bits, mod_spec. destruct (j <? 16) eqn:Q; [|reflexivity]. apply N.ltb_lt in Q.
    replace (j + s <? 64) with true by (symmetry; apply N.ltb_lt; lia). reflexivity. }
  destruct a; cbn [held]; try (apply G; lia). cbn [held] in HB. rewrite HB. apply N.mod_small. exact Hw.
Qed.
(** Non-vacuity *)
Example attrs_example : option_map snd (a_run [7; 123456789123456789; 99; 5]
  [OClear; OSet CloneSession 65535; OSet Resubmit 7; OSet LfFieldList 70000; OGet LfFieldList; OGet CloneFieldList; OGet Resubmit; OSet Resubmit 0; OGet CloneSession; OGet PacketLength]) =
  Some [None; None; None; None; Some 4464; Some 0; Some 7; None; Some 65535; Some 7].
Proof. vm_compute. reflexivity. Qed.
Print Assumptions C42_independent.
Print Assumptions C42_clear_keeps_length.
Print Assumptions C42_uninitialised.
