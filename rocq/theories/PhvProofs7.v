(** Cloning and recycling header vectors. *)
From Coq Require Import List Arith ZArith Bool Lia.
From Verif Require Import Base PhvModel PhvSpec PhvProofs PhvProofs2 PhvProofs3 PhvProofs4 PhvProofs5 PhvProofs6.
Import ListNotations.

(** A header vector as the pool hands it out: created, or recycled after any use *)
Definition blank (d : desc) (s : phv) : Prop := INV true d s /\ forall h x, H s h = Some x -> d_valid x = false /\ d_vf x = false.
Lemma create_blank d : wf d -> blank d (create d).
Proof.
  intros W. split; [apply create_ok; auto|]. intros h x E. unfold H in E. cbn [create p_h] in E. rewrite nth_error_map' in E. destruct (nth_error (ds_h d) h); [|discriminate]. injection E as <-. auto.
Qed.
Lemma recycle_blank ag d s : wf d -> INV ag d s -> INV true d s -> exists s', recycle d s = Some s' /\ blank d s' /\
  (forall u v c, nth_error (p_u s') u = Some (v, c) -> nth_error (ds_u d) u <> Some [] -> v = false) /\ (forall k n, nth_error (p_s s') k = Some n -> n = 0) /\ (forall k n, nth_error (p_us s') k = Some n -> n = 0) /\
  (forall h t y, nth_error (ds_h d) h = Some t -> H s' h = Some y -> exists x, H s h = Some x /\ cleared t x y).
Proof.
  intros W _ I. unfold recycle. destruct (phv_reset_ok true d s W I) as (s1 & E1 & I1 & FR & CL). rewrite E1. cbn [bind]. exists (reset_stacks s1). split; auto.
  assert (HC : forall h t y, nth_error (ds_h d) h = Some t -> H s1 h = Some y -> exists x, H s h = Some x /\ cleared t x y).
  { intros h t y T Y. destruct (H_get _ _ _ h I (nth_error_lt _ _ _ T)) as (x & X). destruct (CL h t x T X) as (y' & Y' & C). exists x. split; auto. rewrite Y in Y'. injection Y' as <-. auto. }
  assert (HV : forall h x, H s1 h = Some x -> d_valid x = false /\ d_vf x = false).
  { intros h x X. assert (L : h < length (ds_h d)) by (rewrite <- (i_h _ _ _ I1); eapply nth_error_lt; eauto). destruct (nth_error_some _ _ L) as (t & T). destruct (HC h t x T X) as (_ & _ & A & B & _). auto. }
  split; [split; [apply reset_stacks_inv; auto|exact HV]|]. split; [|split; [|split]].
  - intros u v c U NE. cbn [reset_stacks p_u] in U. destruct v; auto. assert (L : u < length (ds_u d)) by (rewrite <- (i_u _ _ _ I1); eapply nth_error_lt; eauto). destruct (nth_error_some _ _ L) as (m & M).
    pose proof (i_ui _ _ _ I1 _ _ _ M U) as Lc. destruct (nth_error_some _ _ Lc) as (h & Hh). assert (ME : member d u c h) by (exists m; auto). destruct (H_get _ _ _ h I1) as (x & X); [eapply (wf_u_range _ W); eauto|].
    pose proof (i_un _ _ _ I1 _ _ _ _ _ _ ME X U) as V. rewrite Nat.eqb_refl in V. destruct (HV h x X). cbn in V. congruence.
  - intros k n N. cbn [reset_stacks p_s] in N. rewrite nth_error_map' in N. destruct (nth_error (p_s s1) k); [|discriminate]. injection N as <-. auto.
  - intros k n N. cbn [reset_stacks p_us] in N. rewrite nth_error_map' in N. destruct (nth_error (p_us s1) k); [|discriminate]. injection N as <-. auto.
  - exact HC.
Qed.
Lemma copy_H d dst src h : H (copy_headers d dst src) h =
  match nth_error (ds_h d) h, H dst h, H src h with
  | Some t, Some x, Some y => Some (if d_valid y || hd_meta t then mk_hdr (d_valid y) (d_vf y) (map (fun q : option nat * ((nat * Z) * (nat * Z)) => match fst q with None => snd (snd q) | Some _ => (fst (fst (snd q)), snd (snd (snd q))) end) (combine (hd_fields t) (combine (d_fields x) (d_fields y)))) (d_nb y)
                                   else mk_hdr (d_valid y) (d_vf x) (d_fields x) (d_nb x))
  | _, _, _ => None end.
Proof.
  unfold H, copy_headers. cbn [p_h]. rewrite nth_error_map', !nth_error_combine. destruct (nth_error (ds_h d) h); cbn [option_map]; auto. destruct (nth_error (p_h dst) h), (nth_error (p_h src) h); auto.
Qed.
Lemma copy_hdr ag d dst src h t x y : INV ag d dst -> INV ag d src -> nth_error (ds_h d) h = Some t -> H dst h = Some x -> H src h = Some y ->
  H (copy_headers d dst src) h = Some (if is_valid t y then y else mk_hdr (d_valid y) (d_vf x) (d_fields x) (d_nb x)).
Proof.
  intros ID IS T X Y. rewrite copy_H, T, X, Y. unfold is_valid. rewrite (orb_comm (hd_meta t)). destruct (d_valid y || hd_meta t) eqn:V; auto. rewrite copy_all; [|apply (i_f _ _ _ ID _ _ _ T X)|apply (i_f _ _ _ IS _ _ _ T Y)]. destruct y; auto.
Qed.
Lemma copy_ok d dst src : wf d -> blank d dst -> INV true d src -> INV true d (copy_headers d dst src) /\ eqx [] d (copy_headers d dst src) src.
Proof.
  intros W [ID BL] IS. assert (HC : forall h z, H (copy_headers d dst src) h = Some z -> exists t x y, nth_error (ds_h d) h = Some t /\ H dst h = Some x /\ H src h = Some y /\ z = (if is_valid t y then y else mk_hdr (d_valid y) (d_vf x) (d_fields x) (d_nb x))).
  { intros h z Z. rewrite copy_H in Z. destruct (nth_error (ds_h d) h) as [t|] eqn:T; [|discriminate]. destruct (H dst h) as [x|] eqn:X; [|discriminate]. destruct (H src h) as [y|] eqn:Y; [|discriminate]. exists t, x, y. split; auto. split; auto. split; auto.
    pose proof (copy_hdr true d dst src h t x y ID IS T X Y) as C. rewrite copy_H, T, X, Y in C. congruence. }
  assert (L : length (p_h (copy_headers d dst src)) = length (ds_h d)) by (unfold copy_headers; cbn [p_h]; rewrite map_length, !combine_length, (i_h _ _ _ ID), (i_h _ _ _ IS); lia).
  split.
  - constructor; cbn [copy_headers p_u p_s p_us]; try apply IS; auto.
    + intros u i h z v c M Z U. destruct (HC h z Z) as (t & x & y & T & X & Y & ->). rewrite <- (i_un _ _ _ IS _ _ _ _ _ _ M Y U). destruct (is_valid t y); auto.
    + intros h t z T Z. destruct (HC h z Z) as (t' & x & y & T' & X & Y & ->). rewrite T in T'. injection T' as <-. destruct (is_valid t y); [apply (i_f _ _ _ IS _ _ _ T Y)|]. apply (i_f _ _ _ ID _ _ _ T X).
    + intros _ h z M Z. destruct (HC h z Z) as (t & x & y & T & X & Y & ->). destruct (is_valid t y) eqn:V; [apply (i_ag _ _ _ IS eq_refl h y); auto|]. cbn. unfold is_valid in V. apply orb_false_iff in V as [_ ->]. apply (BL h x X).
  - constructor; auto.
    + split; auto. apply (i_h _ _ _ IS).
    + intros u. cbn [copy_headers p_u]. destruct (nth_error (p_u src) u); cbn; auto.
    + intros h t z y T Z Y. destruct (HC h z Z) as (t' & x & y' & T' & X & Y' & ->). rewrite T in T'. injection T' as <-. rewrite Y in Y'. injection Y' as <-. unfold heq. destruct (is_valid t y) eqn:V; auto. cbn. unfold is_valid in *. cbn. apply orb_false_iff in V as [V1 V2]. rewrite V1, V2.
      split; auto. split; [|intros; discriminate]. rewrite (i_ag _ _ _ IS eq_refl h y (not_meta _ _ _ T V1) Y). rewrite V2. apply (BL h x X).
Qed.
Lemma wmatch_zero t fs : Forall2 wmatch t fs -> sum_bits fs = fixed_bits t -> map (fun f : nat * Z => (fst f, 0%Z)) fs = map (fun w => (match w with Some w => w | None => 0 end, 0%Z)) t.
Proof.
  assert (G : forall t fs, Forall2 wmatch t fs -> fixed_bits t <= sum_bits fs /\ (sum_bits fs = fixed_bits t -> map (fun f : nat * Z => (fst f, 0%Z)) fs = map (fun w => (match w with Some w => w | None => 0 end, 0%Z)) t)).
  { clear. intros t fs F. induction F as [|w [n v] t fs Wf F [IH1 IH2]]; [cbn; auto|]. rewrite sum_bits_cons. replace (fixed_bits (w :: t)) with (match w with Some w => w | None => 0 end + fixed_bits t) by reflexivity. destruct w as [w|]; cbn in Wf.
    - subst. split; [lia|]. intros E. cbn [map fst]. rewrite IH2 by lia. auto.
    - split; [lia|]. intros E. cbn [map fst]. rewrite IH2 by lia. replace n with 0 by lia. auto. }
  intros. apply G; auto.
Qed.
(** A recycled vector, once its metadata are reset, is equivalent to a new one *)
Lemma recycled_fresh d s : wf d -> (forall u, nth_error (ds_u d) u <> Some []) -> INV true d s -> exists s1, recycle d s = Some s1 /\ INV true d (reset_metadata d s1) /\ eqx [] d (reset_metadata d s1) (create d).
Proof.
  intros W NE I. destruct (recycle_blank true d s W I I) as (s1 & E & [I1 BL] & RU & RS & RUS & CL). exists s1. split; auto. pose proof (reset_metadata_inv true d s1 W I1) as I2. split; auto.
  pose proof (create_ok true d W) as IC. constructor.
  - split; [apply (i_h _ _ _ I2)|apply (i_h _ _ _ IC)].
  - intros u. cbn [reset_metadata p_u create]. rewrite nth_error_map'. pose proof (i_u _ _ _ I1) as LU. destruct (nth_error (ds_u d) u) as [m|] eqn:M; cbn [option_map].
    + destruct (nth_error_some (p_u s1) u) as ([v c] & U); [rewrite LU; eapply nth_error_lt; eauto|]. rewrite U. rewrite (RU u v c U) by (rewrite M; intros C; injection C as ->; apply (NE u); auto). cbn. split; auto. intros; discriminate.
    + replace (nth_error (p_u s1) u) with (@None (bool * nat)) by (symmetry; apply nth_error_None; rewrite LU; apply nth_error_None; auto). cbn. auto.
  - cbn [reset_metadata p_s create]. apply nth_error_ext. intros k. rewrite nth_error_map'. pose proof (i_s _ _ _ I1) as LS. destruct (nth_error (ds_s d) k) eqn:M; cbn [option_map].
    + destruct (nth_error_some (p_s s1) k) as (n & N); [rewrite LS; eapply nth_error_lt; eauto|]. rewrite N. rewrite (RS k n N). auto.
    + apply nth_error_None. rewrite LS. apply nth_error_None. auto.
  - cbn [reset_metadata p_us create]. apply nth_error_ext. intros k. rewrite nth_error_map'. pose proof (i_us _ _ _ I1) as LS. destruct (nth_error (ds_us d) k) eqn:M; cbn [option_map].
    + destruct (nth_error_some (p_us s1) k) as (n & N); [rewrite LS; eapply nth_error_lt; eauto|]. rewrite N. rewrite (RUS k n N). auto.
    + apply nth_error_None. rewrite LS. apply nth_error_None. auto.
  - intros h t x y T X Y. rewrite reset_metadata_H, T in X. destruct (H s1 h) as [z|] eqn:Z; [|discriminate]. injection X as <-. destruct (BL h z Z) as [B1 B2]. unfold H in Y. cbn [create p_h] in Y. rewrite nth_error_map', T in Y. injection Y as <-. unfold heq.
    destruct (hd_meta t) eqn:M; cbn [reset_hdr d_valid d_vf new_hdr].
    + split; auto. split; auto. intros _ _. unfold reset_hdr, new_hdr. rewrite B1. destruct (CL h t z T Z) as (x0 & _ & _ & _ & _ & C2 & C3). pose proof (proj1 (i_f _ _ _ I1 _ _ _ T Z)) as FF. rewrite (wmatch_zero _ _ FF C3). f_equal.
      rewrite new_sum. pose proof (wf_size _ W _ _ T) as M8. destruct (mod8 _ M8) as (q & Q). rewrite Q in C2 |- *. rewrite Nat.mul_comm, Nat.div_mul by lia. lia.
    + split; auto. split; auto. unfold is_valid. rewrite M, B1. intros; discriminate.
Qed.
