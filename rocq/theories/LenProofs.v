From Coq Require Import List Arith ZArith NArith Bool Lia Permutation.
From Verif Require Import Base ExtractModel BufModel ParserModel CksumModel Bits DeparseModel DeparseProofs DeparseProps PhvModel PhvSpec PhvProofs PhvProofs2 PhvProofs3 PhvProofs4 PhvProofs5 PhvProps LenModel LenSpec.
Import ListNotations.

Lemma total_one f g l h : NoDup l -> In h l -> (forall k, k <> h -> f k = g k) -> total f l + g h = total g l + f h.
Proof.
  intros ND. induction ND as [|a l NI ND IH]; intros IN E; [contradiction|]. cbn [total fold_right]. fold (total f l) (total g l). destruct IN as [->|IN].
  - assert (total f l = total g l) as ->; [|lia]. clear IH ND. induction l as [|b l IH]; auto. cbn [total fold_right]. fold (total f l) (total g l). rewrite IH by (intros X; apply NI; right; auto). rewrite E; auto. intros ->. apply NI. left; auto.
  - assert (a <> h) by congruence. rewrite (E a) by auto. specialize (IH IN E). lia.
Qed.
Lemma total_ext f g l : (forall k, In k l -> f k = g k) -> total f l = total g l.
Proof. induction l as [|a l IH]; intros E; auto. cbn [total fold_right]. fold (total f l) (total g l). rewrite E, IH; auto; [intros; apply E; right; auto|left; auto]. Qed.
Lemma total_perm f l m : Permutation l m -> total f l = total f m.
Proof. induction 1; cbn [total fold_right] in *; unfold total in *; lia. Qed.

Lemma size_one d s s' h : h < length (ds_h d) -> (forall k, k <> h -> hdr_bytes d s' k = hdr_bytes d s k) -> size d s' + hdr_bytes d s h = size d s + hdr_bytes d s' h.
Proof. intros L E. apply total_one; auto. - apply seq_NoDup. - apply in_seq. lia. Qed.
Lemma size_same d s s' : (forall k, hdr_bytes d s' k = hdr_bytes d s k) -> size d s' = size d s.
Proof. intros E. apply total_ext. auto. Qed.

Lemma sum_fold fs : fold_right (fun (f : nat * Z) n => fst f + n) 0 fs = sum_bits fs.
Proof. unfold sum_bits. induction fs; cbn; auto. Qed.
Lemma hb d s h t x : nth_error (ds_h d) h = Some t -> H s h = Some x -> hdr_bytes d s h = if negb (hd_meta t) && d_valid x then sum_bits (d_fields x) / 8 else 0.
Proof. intros T X. unfold hdr_bytes. rewrite T. unfold header. fold (H s h). rewrite X, sum_fold. auto. Qed.
Lemma hb_H d s s' h : H s' h = H s h -> hdr_bytes d s' h = hdr_bytes d s h.
Proof. unfold hdr_bytes, header, H. intros ->. auto. Qed.
Lemma nb_bytes t x : fields_ok t x -> d_nb x = Z.of_nat (sum_bits (d_fields x) / 8).
Proof. intros [_ E]. rewrite Nat2Z.inj_div. change (Z.of_nat 8) with 8%Z. rewrite <- E, Z.mul_comm, Z.div_mul; lia. Qed.

Lemma add_len d s len h : add_header_len d (s, len) h = bind (add_header d s h) (fun s1 => match nth_error (ds_h d) h, H s h, H s1 h with
  | Some t, Some x, Some y => Some (s1, if is_valid t x then len else wrap64 (len + d_nb y)) | _, _, _ => None end).
Proof.
  unfold add_header_len, add_header. cbn [fst snd]. destruct (nth_error (ds_h d) h) as [t|]; cbn [bind]; auto. fold (H s h). destruct (H s h) as [x|] eqn:X; cbn [bind]; auto.
  destruct (is_valid t x); cbn [bind]; [rewrite X; auto|]. destruct (mark_valid d _ h) as [s1|]; cbn [bind]; auto.
Qed.
Lemma remove_len d s len h : remove_header_len d (s, len) h = bind (remove_header d s h) (fun s1 => match nth_error (ds_h d) h, H s h with
  | Some t, Some x => Some (s1, if is_valid t x then wrap64 (len - d_nb x) else len) | _, _ => None end).
Proof.
  unfold remove_header_len, remove_header. cbn [fst snd]. destruct (nth_error (ds_h d) h) as [t|]; cbn [bind]; auto. fold (H s h). destruct (H s h) as [x|] eqn:X; cbn [bind]; auto.
  destruct (is_valid t x); cbn [bind]; auto.
Qed.

Lemma wrap_delta a b : (0 <= a < 2 ^ 64)%Z -> b = 0%Z -> a = wrap64 (a + b).
Proof. intros A ->. unfold wrap64. rewrite Z.add_0_r, Z.mod_small; auto. Qed.
Lemma wrap_range z : (0 <= wrap64 z < 2 ^ 64)%Z.
Proof. apply Z.mod_pos_bound. lia. Qed.

Lemma step_exact legacy d s len o : wf d -> INV false d s -> op_ok d o -> kept d s o -> (0 <= len < 2 ^ 64)%Z ->
  exists s' len', len_step legacy d (s, len) o = Some (s', len') /\ step legacy d s o = Some s' /\ INV false d s' /\ len' = wrap64 (len + (Z.of_nat (size d s') - Z.of_nat (size d s))).
Proof.
  intros W I OK K RL. destruct (step_inv false legacy d s o W I OK) as (s' & S & I'); [discriminate|]. destruct o; cbn [kept] in K; try contradiction; cbn [len_step fst snd]; cbn [step] in S.
  - cbn [op_ok] in OK. destruct (nth_error_some _ _ OK) as (t & T). destruct (H_get _ _ _ h I OK) as (x & X). destruct (add_header_ok false d s h t x W I T X) as (s2 & A & B & FR & V1 & V2).
    rewrite A in S. inversion S; subst s2; clear S. cbn [step]. rewrite add_len, A. cbn [bind]. rewrite T, X. destruct (is_valid t x) eqn:V.
    + rewrite (V1 eq_refl) in *. rewrite X. exists s, len. split; [auto|]. split; [auto|]. split; [auto|]. apply wrap_delta; auto. lia.
    + destruct (V2 eq_refl) as [HH HK]. rewrite HH. eexists _, _. split; [reflexivity|]. split; [auto|]. split; [auto|]. f_equal. f_equal.
      unfold is_valid in V. apply orb_false_iff in V as [V3 V4].
      assert (SZ : size d s' + hdr_bytes d s h = size d s + hdr_bytes d s' h).
      { apply size_one; auto. intros k N. destruct (H s k) as [y|] eqn:Y.
        - apply hb_H. rewrite (HK k y N Y), Y. f_equal. unfold after_valid. destruct (um d h) as [[u i]|] eqn:U; auto. destruct (um d k) as [[u' i']|] eqn:U'; auto. destruct (Nat.eqb_spec u u'); auto. subst u'.
          assert (SB : siblings d h k). { exists u, i, i'. pose proof (um_member _ _ _ _ U) as M1. pose proof (um_member _ _ _ _ U') as M2. repeat split; auto. intros ->. destruct M1 as (m & P & Q), M2 as (m' & P' & Q'). congruence. }
          rewrite (K k y SB Y). auto.
        - apply hb_H. rewrite Y. eapply H_none_frame; eauto. }
      rewrite (hb d s h t x T X), (hb d s' h t _ T HH) in SZ. rewrite V3, V4 in SZ. cbn [negb andb d_valid d_fields] in SZ. rewrite zero_sum in SZ. cbn [d_nb]. rewrite (nb_bytes t x (i_f _ _ _ I _ _ _ T X)). lia.
  - cbn [op_ok] in OK. destruct (nth_error_some _ _ OK) as (t & T). destruct (H_get _ _ _ h I OK) as (x & X). destruct (remove_header_ok false d s h t x W I T X) as (s2 & A & B & FR & V1 & V2 & HK).
    rewrite A in S. inversion S; subst s2; clear S. cbn [step]. rewrite remove_len, A. cbn [bind]. rewrite T, X. assert (MT : hd_meta t = false). { destruct (hd_meta t) eqn:M; auto. exfalso. apply K. exists t; auto. }
    destruct (is_valid t x) eqn:V.
    + eexists _, _. split; [reflexivity|]. split; [auto|]. split; [auto|]. f_equal. unfold is_valid in V. rewrite MT in V. cbn [orb] in V.
      assert (SZ : size d s' + hdr_bytes d s h = size d s + hdr_bytes d s' h) by (apply size_one; auto; intros k N; apply hb_H; auto).
      rewrite (hb d s h t x T X), (hb d s' h t _ T (V2 eq_refl)) in SZ. rewrite MT, V in SZ. cbn [negb andb d_valid with_valid] in SZ. rewrite (nb_bytes t x (i_f _ _ _ I _ _ _ T X)). lia.
    + rewrite (V1 eq_refl) in *. exists s, len. split; [auto|]. split; [auto|]. split; [auto|]. apply wrap_delta; auto. lia.
  - cbn [step]. rewrite S. cbn [bind]. eexists _, _. split; [reflexivity|]. split; [auto|]. split; [auto|]. apply wrap_delta; auto.
    cut (size d s' = size d s); [lia|]. apply size_same. intros k. unfold set_field in S. destruct (nth_error (p_h s) h) as [x|] eqn:X; [|discriminate]. cbn [bind] in S.
    destruct (nth_error (d_fields x) f) as [q|] eqn:Q; [|discriminate]. cbn [bind] in S. inversion S; subst s'; clear S. destruct (Nat.eq_dec h k) as [->|N].
    + destruct OK as (t & T & _). pose proof (i_f _ _ _ I _ _ _ T X) as [FX NX]. destruct (wmatch_set _ _ _ v _ FX Q) as [_ B]. fold (H s k) in X. rewrite (hb _ _ _ _ _ T X), (hb _ (set_h s k _) k t _ T (H_set_eq s k _ (nth_error_lt _ _ _ X))). cbn [d_valid d_fields]. rewrite B. auto.
    + apply hb_H. apply H_set_neq; auto.
  - cbn [step bind]. inversion S; subst s'. eexists _, _. split; [reflexivity|]. split; [auto|]. split; [auto|]. apply wrap_delta; auto.
    cut (size d (reset_metadata d s) = size d s); [lia|]. apply size_same. intros k. unfold hdr_bytes, header. fold (H (reset_metadata d s) k) (H s k). rewrite reset_metadata_H. destruct (nth_error (ds_h d) k) as [t|]; auto.
    destruct (H s k) as [x|]; auto. destruct (hd_meta t); auto.
Qed.

Lemma run_exact legacy d l : wf d -> Forall (op_ok d) l -> forall s len, INV false d s -> kept_all legacy d s l -> (0 <= len < 2 ^ 64)%Z ->
  exists s' len', len_run legacy d (s, len) l = Some (s', len') /\ run legacy d s l = Some s' /\ INV false d s' /\ len' = wrap64 (len + (Z.of_nat (size d s') - Z.of_nat (size d s))).
Proof.
  intros W. induction l as [|o l IH]; intros OK s len I K RL.
  - exists s, len. split; [auto|]. split; [auto|]. split; [auto|]. apply wrap_delta; auto. lia.
  - inversion OK as [|o1 l1 O1 O2]; subst. destruct K as [K1 K2]. destruct (step_exact legacy d s len o W I O1 K1 RL) as (s1 & n1 & A & B & C & D).
    destruct (IH O2 s1 n1 C (K2 s1 B)) as (s2 & l2 & A2 & B2 & C2 & D2); [subst n1; apply wrap_range|].
    exists s2, l2. cbn [len_run run]. rewrite A, B. cbn [bind]. split; [auto|]. split; [auto|]. split; [auto|]. rewrite D2, D. unfold wrap64. rewrite Zplus_mod_idemp_l. f_equal. lia.
Qed.

(** ** The deparser *)
Lemma headers_total d s hs n : INV false d s -> (forall h, In h hs -> ~ meta d h) -> headers_size d s hs = Some n -> n = total (hdr_bytes d s) hs.
Proof.
  intros I. revert n. induction hs as [|h hs IH]; intros n NM E; cbn [headers_size] in E; [inversion E; auto|]. destruct (nth_error (ds_h d) h) as [t|] eqn:T; [|discriminate]. destruct (nth_error (p_h s) h) as [x|] eqn:X; [|discriminate]. cbn [bind] in E.
  destruct (headers_size d s hs) as [m|]; [|discriminate]. cbn [bind] in E. inversion E; subst. cbn [total fold_right]. fold (total (hdr_bytes d s) hs). rewrite <- (IH m); [|intros; apply NM; right; auto|auto]. f_equal. fold (H s h) in X.
  rewrite (hb d s h t x T X). assert (MT : hd_meta t = false). { destruct (hd_meta t) eqn:M; auto. exfalso. apply (NM h); [left; auto|]. exists t; auto. }
  unfold is_valid. rewrite MT. cbn [orb negb andb]. destruct (d_valid x); auto. rewrite (nb_bytes t x (i_f _ _ _ I _ _ _ T X)). lia.
Qed.
Lemma total_split f (p : nat -> bool) l : (forall k, p k = false -> f k = 0) -> total f l = total f (filter p l).
Proof. intros Z. induction l as [|a l IH]; auto. cbn [total fold_right filter]. fold (total f l). destruct (p a) eqn:P; cbn [total fold_right]; [fold (total f (filter p l)); lia|]. rewrite (Z a P). auto. Qed.
Lemma size_total d s hs : emits_all d hs -> size d s = total (hdr_bytes d s) hs.
Proof.
  intros [ND AL]. unfold size. rewrite (total_split _ (fun h => match nth_error (ds_h d) h with Some t => negb (hd_meta t) | None => false end)).
  - apply total_perm. apply NoDup_Permutation; auto; [apply NoDup_filter; apply seq_NoDup|]. intros h. rewrite filter_In, in_seq, AL. split.
    + intros [A B]. split; [lia|]. intros (t & T & M). rewrite T, M in B. discriminate.
    + intros [A B]. split; [lia|]. destruct (nth_error_some _ _ A) as (t & T). rewrite T. destruct (hd_meta t) eqn:M; auto. exfalso. apply B. exists t; auto.
  - intros k E. unfold hdr_bytes. destruct (nth_error (ds_h d) k) as [t|]; auto. destruct (header s k); auto. rewrite E. auto.
Qed.
Lemma run_app legacy d l m : forall s, run legacy d s (l ++ m) = bind (run legacy d s l) (fun s1 => run legacy d s1 m).
Proof. induction l as [|o l IH]; intros s; auto. cbn [app run]. destruct (step legacy d s o) as [s1|]; cbn [bind]; auto. Qed.
Lemma reach_run legacy d s l s' : reach legacy d s -> Forall (op_ok d) l -> run legacy d s l = Some s' -> reach legacy d s'.
Proof. intros (l0 & A & B) OK R. exists (l0 ++ l). split; [apply Forall_app; auto|]. rewrite run_app, B. auto. Qed.
Lemma deparse_length legacy d hs old payload s s' out : wf d -> reach legacy d s -> bytes_ok old -> bytes_ok payload -> emits_all d hs -> deparse legacy d [] [] hs old payload s = Some (s', out) -> length out = size d s + length payload.
Proof.
  intros W R BO BP EA D. pose proof (reach_INV _ _ _ W R) as I. destruct (C32_encodings legacy d s hs W R) as (ps & E & _); [intros h IN; apply EA in IN; tauto|].
  rewrite (C32_deparse legacy d s s [] hs ps old payload W R BO BP eq_refl E) in D. destruct (_ <=? _); [|discriminate]. inversion D; subst. rewrite app_length. f_equal. rewrite (size_total d s' hs EA). apply (headers_total d s' hs); auto.
  - intros h IN. apply EA in IN. tauto.
  - apply emits_size; auto.
Qed.
