(** C58: the InternetChecksum extern; C59: the Hash extern. *)
From Coq Require Import List Arith NArith ZArith Bool Lia Permutation.
From Verif Require Import Base Bits ExtractModel ExtractSpec PhvModel ParserModel ParserSpec BufModel CksumSpec PsaExtModel PsaExtSpec PsaExtProofs.
Import ListNotations.
Local Open Scope N_scope.

(** Every history of calls on whole words of bit<W> fields, of any size, ends and gives what the PSA defines, except that a subtraction from 0 of a multiple of 65535 may give the other zero. *)
Theorem C58_history ops : Forall op_ok ops -> exists s' outs, ends (fun fuel => ck_run fuel 0 ops) (s', outs) /\ psa_run false 0 ops s' outs.
Proof. intros F. destruct (run_holds ops 0 F ltac:(lia)) as (s' & outs & P & _ & E). exists s', outs. split; auto. Qed.
Print Assumptions C58_history.

(** Without subtraction it is the PSA to the letter. *)
Theorem C58_additions ops : Forall op_ok ops -> (forall fs, ~ In (CSub fs) ops) -> exists s' outs, ends (fun fuel => ck_run fuel 0 ops) (s', outs) /\ psa_run true 0 ops s' outs.
Proof.
  intros F NS. destruct (C58_history ops F) as (s' & outs & E & P). exists s', outs. split; auto. clear - P NS.
  induction P as [|s o s1 out r s2 outs H P IH]; [constructor|]. econstructor; [|apply IH; intros fs I; apply (NS fs); right; exact I].
  destruct o; try exact H. destruct (NS fs). left. reflexivity.
Qed.
Print Assumptions C58_additions.

Lemma words_unique b ws ws' : words_of b ws -> words_of b ws' -> ws = ws'.
Proof.
  intros [F E] [F' E']. rewrite E in E'. clear E. revert ws' F' E'. induction F as [|w ws W F IH]; intros [|w' ws'] F' E; auto.
  - cbn [map concat] in E. apply (f_equal (@length bool)) in E. rewrite app_length, bitsN_length in E. cbn in E. lia.
  - cbn [map concat] in E. apply (f_equal (@length bool)) in E. rewrite app_length, bitsN_length in E. cbn in E. lia.
  - inversion F'; subst. cbn [map concat] in E. assert (A : forall (a a' b b' : list bool), length a = length a' -> a ++ b = a' ++ b' -> a = a' /\ b = b').
    { induction a as [|x a IHa]; intros [|x' a'] b1 b2 L X; cbn in L; try lia; auto. inversion X; subst. destruct (IHa a' b1 b2 ltac:(lia) ltac:(assumption)); subst; auto. }
    apply A in E; [|rewrite !bitsN_length; reflexivity]. destruct E as [E1 E2]. f_equal; [apply (bitsN_inj 16); auto|]. apply IH; auto.
Qed.
(** The words may be added in any order, in one call or in several. *)
Theorem C58_any_order s calls calls' ws ws' : s <= 65535 -> Forall data_ok calls -> Forall data_ok calls' ->
  words_of (concat (map data_bits calls)) ws -> words_of (concat (map data_bits calls')) ws' -> Permutation ws ws' ->
  exists r outs outs', ends (fun fuel => ck_run fuel s (map CAdd calls)) (r, outs) /\ ends (fun fuel => ck_run fuel s (map CAdd calls')) (r, outs').
Proof.
  intros S F F' W W' P.
  assert (G : forall calls s ws, s <= 65535 -> Forall data_ok calls -> words_of (concat (map data_bits calls)) ws -> exists outs, ends (fun fuel => ck_run fuel s (map CAdd calls)) (psa_add s ws, outs)).
  { clear. intros calls s ws S F W. destruct (run_holds (map CAdd calls) s) as (r & outs & PR & _ & E); auto.
    { apply Forall_forall. intros o I. apply in_map_iff in I. destruct I as (fs & <- & I). rewrite Forall_forall in F. apply F. exact I. }
    exists outs. replace (psa_add s ws) with r; [exact E|]. clear E S F. revert s ws outs W PR. induction calls as [|c calls IH]; intros s ws outs W PR; cbn [map concat] in *.
    - inversion PR; subst. replace ws with (@nil N); [reflexivity|]. apply words_unique with (b := []); auto. split; [constructor|reflexivity].
    - inversion PR; subst. destruct H2 as (_ & w1 & W1 & ->). destruct W as [Wf Wb]. destruct W1 as [W1f W1b].
      assert (X : exists w2, words_of (concat (map data_bits calls)) w2).
      { apply (PsaExtProofs.words_exist (length ws - length w1)). assert (LL : forall l, length (concat (map (bitsN 16) l)) = (16 * length l)%nat) by (induction l; auto; cbn [map concat length]; rewrite app_length, bitsN_length, IHl; lia).
        pose proof (f_equal (@length bool) Wb) as Lb. rewrite app_length, W1b, !LL in Lb. lia. }
      destruct X as (w2 & W2). rewrite (words_unique _ ws (w1 ++ w2) (conj Wf Wb)).
      + unfold psa_add. rewrite fold_left_app. eapply (IH _ _ _ W2). eassumption.
      + destruct W2 as [W2f W2b]. split; [apply Forall_app; auto|]. rewrite map_app, concat_app, <- W1b, <- W2b. reflexivity. }
  destruct (G calls s ws S F W) as (o1 & E1). destruct (G calls' s ws' S F' W') as (o2 & E2). exists (psa_add s ws), o1, o2. split; auto.
  replace (psa_add s ws) with (psa_add s ws'); auto. apply rep1_inj with (n := (Z.of_N s + Z.of_N (total ws))%Z); [|apply psa_add_rep; [apply W|apply rep1_self; auto]].
  replace (total ws) with (total ws'); [apply psa_add_rep; [apply W'|apply rep1_self; auto]|]. clear - P. unfold total. induction P; cbn [fold_right]; lia.
Qed.
Print Assumptions C58_any_order.

(** Clearing, adding the fields of a byte string and getting yields the Internet checksum of RFC 1071. *)
Theorem C58_rfc1071 s fs bytes : data_ok fs -> bytes_ok bytes -> data_bits fs = bits_of_bytes bytes ->
  exists s', ends (fun fuel => ck_run fuel s [CClear; CAdd fs; CGet]) (s', [None; None; Some (rfc1071 bytes)]).
Proof.
  intros K B E. destruct (step_holds (CAdd fs) 0 K ltac:(lia)) as (s' & out & (-> & ws & W & ->) & _ & n & R). exists (psa_add 0 ws). exists n. intros fuel L. cbn [ck_run ck_step bindr fst snd].
  specialize (R fuel L). cbn [ck_step] in R. rewrite R. cbn [bindr fst snd]. do 6 f_equal. unfold rfc1071. f_equal. unfold oc_sum, psa_add. f_equal.
  assert (EV : Nat.Even (length bytes)).
  { destruct K as [_ M]. rewrite E in M. assert (LB : length (bits_of_bytes bytes) = (8 * length bytes)%nat). { clear. induction bytes as [|x r IH]; auto. unfold bits_of_bytes in *. cbn [flat_map]. rewrite app_length, IH, bitsN_length. cbn [length]. lia. }
    rewrite LB in M. exists (length bytes / 2)%nat. pose proof (Nat.div_mod (8 * length bytes) 16 ltac:(lia)). pose proof (Nat.div_mod (length bytes) 2 ltac:(lia)). pose proof (Nat.mod_upper_bound (length bytes) 2 ltac:(lia)). lia. }
  apply words_unique with (b := data_bits fs); auto. rewrite E. clear - B EV. destruct EV as [n L]. revert bytes L B. induction n as [|n IH]; intros bytes L B.
  - destruct bytes; [|cbn in L; lia]. split; [constructor|reflexivity].
  - destruct bytes as [|a [|b r]]; cbn in L; try lia. inversion B; subst. inversion H2; subst. destruct (IH r ltac:(lia) H4) as [F C]. cbn [words16]. split; [constructor; auto; lia|].
    cbn [map concat]. rewrite <- C. unfold bits_of_bytes. cbn [flat_map]. change 16%nat with (8 + 8)%nat. rewrite bitsN_app, app_assoc. f_equal. f_equal.
    + f_equal. rewrite N.shiftr_div_pow2. change (2 ^ N.of_nat 8) with 256. apply N.div_unique with b; lia.
    + rewrite <- (bitsN_mod 8 (256 * a + b)). change (2 ^ N.of_nat 8) with 256. f_equal. apply N.mod_unique with a; lia.
Qed.
Print Assumptions C58_rfc1071.

(** Incremental update: when some of the words behind a sum are replaced, subtracting the old ones and adding the new ones gives the sum of the new data, provided that neither the old sum nor the new data are zero. *)
Theorem C58_incremental s old new a b ws ws' : data_ok old -> data_ok new -> words_of (data_bits old) ws -> words_of (data_bits new) ws' ->
  Forall (fun w => w < 65536) (a ++ b) -> s = psa_add 0 (a ++ ws ++ b) -> s <> 0 -> total (a ++ ws' ++ b) <> 0 ->
  ends (fun fuel => ck_run fuel s [CSub old; CAdd new; CState]) (psa_add 0 (a ++ ws' ++ b), [None; None; Some (psa_add 0 (a ++ ws' ++ b))]).
Proof.
  intros KO KN WO WN F ES NZ NZ'. apply Forall_app in F. destruct F as [Fa Fb].
  assert (TA : forall x y z, total (x ++ y ++ z) = total x + total y + total z). { intros x y z. unfold total. rewrite !fold_right_app. assert (H : forall l e, fold_right N.add e l = fold_right N.add 0 l + e) by (induction l; intros e; cbn [fold_right]; [lia|rewrite IHl; lia]). rewrite H, (H y). lia. }
  assert (R0 : rep1 0 0%Z) by (apply rep1_self; lia).
  pose proof (psa_add_rep (a ++ ws ++ b) 0 0%Z ltac:(rewrite !Forall_app; repeat split; auto; apply WO) R0) as RO.
  pose proof (psa_add_rep (a ++ ws' ++ b) 0 0%Z ltac:(rewrite !Forall_app; repeat split; auto; apply WN) R0) as RN. rewrite <- ES in RO.
  destruct RO as (S & [k1 D1] & _). destruct RN as (S' & [k2 D2] & Z2 & _).
  destruct (step_holds (CSub old) s KO S) as (s1 & out & (-> & w1 & W1 & A1) & S1 & n1 & E1). apply (words_unique _ _ _ WO) in W1. subst w1. destruct A1 as [A1|A1]; [|lia].
  destruct (psa_sub_rep ws s (proj1 WO) S) as (_ & [k3 D3] & Z3). rewrite <- A1 in *.
  destruct (step_holds (CAdd new) s1 KN S1) as (s2 & out & (-> & w2 & W2 & A2) & S2 & n2 & E2). apply (words_unique _ _ _ WN) in W2. subst w2.
  pose proof (psa_add_rep ws' s1 _ (proj1 WN) (rep1_self _ S1)) as (_ & [k4 D4] & Z4 & _). rewrite <- A2 in *.
  assert (E : s2 = psa_add 0 (a ++ ws' ++ b)). { rewrite TA in *. apply cong_small; [lia|lia|]. exists (k4 + k3 + k1 - k2)%Z. lia. }
  exists (Nat.max n1 n2). intros fuel L. cbn [ck_run]. rewrite E1 by lia. cbn [bindr fst snd]. rewrite E2 by lia. cbn [bindr fst snd ck_step]. rewrite E. reflexivity.
Qed.
Print Assumptions C58_incremental.

(** Subtracting zero words from a sum of 0 leaves it at 0, where the PSA says 65535; the checksum read is 0xffff instead of 0. *)
Theorem C58_subtract_zero_refuted : ~ (forall ops, Forall op_ok ops -> exists s' outs, ends (fun fuel => ck_run fuel 0 ops) (s', outs) /\ psa_run true 0 ops s' outs).
Proof.
  intros H. destruct (H [CSub [(16%nat, 0%Z)]]) as (s' & outs & [n E] & P).
  - constructor; [|constructor]. split; [repeat constructor; cbn; lia|reflexivity].
  - specialize (E n (le_n n)). inversion P as [|? ? s1 out ? ? os A Q]; subst. inversion Q; subst. destruct A as (_ & ws & W & [A|[X _]]); [|discriminate X]. subst.
    assert (ws = [0]) as ->. { apply words_unique with (1 := W). split; [repeat constructor; lia|reflexivity]. }
    destruct n; vm_compute in E; discriminate E.
Qed.
Print Assumptions C58_subtract_zero_refuted.

(** A call whose first field is signed and negative never returns. *)
Theorem C58_negative_hangs : forall fuel s w v fs sub, (- 2 ^ Z.of_nat w <= v < 0)%Z -> Forall unsigned fs ->
  ((w + length (data_bits fs)) mod 16 = 0)%nat -> (Z.of_nat (length (data_bits fs)) < 65536)%Z ->
  ck_step fuel s (if sub : bool then CSub ((w, v) :: fs) else CAdd ((w, v) :: fs)) = Hangs.
Proof.
  intros fuel s w v fs sub V F M L.
  assert (C : exists i, concatenate_fields ((w, v) :: fs) = Done i /\ (i < 0)%Z).
  { unfold concatenate_fields. rewrite <- fold_left_rev_right, rev_involutive. cbn [fold_right].
    assert (I : fold_right (fun y x => conc_step x y) (0, 0)%Z fs = (value fs, Z.of_nat (length (data_bits fs)))).
    { clear V M. induction F as [|f fs U F IH]; [reflexivity|]. assert (LE : length (data_bits (f :: fs)) = (fst f + length (data_bits fs))%nat) by (unfold data_bits; cbn [map concat]; rewrite app_length, bitsN_length; reflexivity).
      cbn [fold_right]. rewrite IH by lia. unfold conc_step. rewrite value_cons by auto. rewrite Z.shiftl_mul_pow2 by lia. rewrite LE in *. rewrite Z.mod_small by lia. f_equal; lia. }
    rewrite I. unfold conc_step. cbn [fst snd]. rewrite Z.shiftl_mul_pow2 by lia.
    assert (E : (((Z.of_nat (length (data_bits fs)) + Z.of_nat w) mod 65536) mod 16 = 0)%Z). { rewrite mod_mod16, <- Nat2Z.inj_add, Nat.add_comm. change 16%Z with (Z.of_nat 16). rewrite <- Nat2Z.inj_mod, M. reflexivity. }
    rewrite E. eexists. split; [reflexivity|]. pose proof (of_bits_lt (data_bits fs)) as B. unfold value. apply N2Z.inj_lt in B. rewrite N2Z.inj_pow, nat_N_Z in B. change (Z.of_N 2) with 2%Z in B. nia. }
  destruct C as (i & C & N). destruct sub; cbn [ck_step]; rewrite C; cbn [bindr]; rewrite neg_hangs; auto.
Qed.
Print Assumptions C58_negative_hangs.
(** Calls with fields of type int<W> need not return. *)
Theorem C58_signed_refuted : ~ (forall fs, Forall (fun f => - 2 ^ (Z.of_nat (fst f) - 1) <= snd f < 2 ^ (Z.of_nat (fst f) - 1))%Z fs -> (fold_right Nat.add 0 (map fst fs) mod 16 = 0)%nat ->
  exists r, ends (fun fuel => ck_step fuel 0 (CAdd fs)) r).
Proof.
  intros H. destruct (H [(16%nat, (-1)%Z)]) as (r & n & E); [repeat constructor; cbn; lia|reflexivity|]. specialize (E n (le_n n)).
  pose proof (C58_negative_hangs n 0 16 (-1)%Z [] false) as X. cbn [length data_bits map concat] in X. rewrite X in E; [discriminate E| | | |]; try constructor; cbn; lia.
Qed.
Print Assumptions C58_signed_refuted.

Definition fld (w : nat) (v : Z) : nat * Z := (w, v).
(** An IPv4 header as fields of 4, 4, 8, 16, 16, 3, 13, 8, 8 and two times 32 bits, without its checksum *)
Definition ip_fields : list (nat * Z) := [fld 4 4; fld 4 5; fld 8 0; fld 16 115; fld 16 0; fld 3 2; fld 13 0; fld 8 64; fld 8 17; fld 32 3232235521; fld 32 3232235719].
Definition ip_bytes : list N := [69; 0; 0; 115; 0; 0; 64; 0; 64; 17; 192; 168; 0; 1; 192; 168; 0; 199].
Example C58_ip : data_ok ip_fields /\ data_bits ip_fields = bits_of_bytes ip_bytes /\ bytes_ok ip_bytes /\ rfc1071 ip_bytes = 0xb861 /\
  ck_run 20 0 [CAdd ip_fields; CGet; CVerify 0xb861; CSub [fld 8 64; fld 8 17]; CAdd [fld 8 63; fld 8 17]; CGet] =
  Done (0x469e, [None; Some 0xb861; Some 1; None; None; Some 0xb961]).
Proof.
  split; [|split; [vm_compute; reflexivity|split; [repeat constructor|split; vm_compute; reflexivity]]].
  split; [repeat constructor; cbn; lia|vm_compute; reflexivity].
Qed.
(** An update that meets the hypotheses of [C58_incremental] *)
Example C58_update_applies : let old := [fld 8 64; fld 8 17] in let new := [fld 8 63; fld 8 17] in
  data_ok old /\ data_ok new /\ words_of (data_bits old) [0x4011] /\ words_of (data_bits new) [0x3f11] /\ psa_add 0 ([0x4500; 0x73; 0; 0x4000] ++ [0x4011] ++ [0xc0a8; 1; 0xc0a8; 0xc7]) <> 0.
Proof. cbv zeta. repeat split; try (repeat constructor; cbn; lia); vm_compute; congruence. Qed.

(** ** Hash *)
(** The hash of a list of fields, bit<W> or int<W>, is that of their bits, with zeros before them up to a whole number of bytes; with a base and a modulus it is congruent to it, in the range that they give. *)
Theorem C59_hash : forall fs, exists buf, hash_input fs buf /\
  (forall calc, get_hash calc fs = Some (calc buf)) /\
  (forall calc base max, 0 < max -> base + max < 2 ^ 64 -> exists h q, get_hash_mod calc base fs max = Some h /\ base <= h < base + max /\ calc buf + base = h + q * max).
Proof.
  intros fs. destruct (build_holds fs) as (buf & E & B & L & BB). exists buf. split; [unfold hash_input; rewrite BufProofs.len_bits; auto|].
  split; [intros calc; unfold get_hash; rewrite E; reflexivity|]. intros calc base max P S. exists (base + calc buf mod max), (calc buf / max).
  unfold get_hash_mod. rewrite E. cbn [BufModel.write_at]. pose proof (N.mod_lt (calc buf) max ltac:(lia)) as ML. pose proof (N.div_mod (calc buf) max ltac:(lia)) as DM.
  cbn. rewrite (N.mod_small max) by lia. destruct (N.eqb_spec max 0); [lia|]. rewrite (N.mod_small base) by lia.
  rewrite (N.mul_comm (calc buf / max)). set (q := max * (calc buf / max)) in *. set (m := calc buf mod max) in *. clearbody q m. rewrite N.mod_small by lia. split; [reflexivity|]. lia.
Qed.
Print Assumptions C59_hash.
(** A modulus of 0 is a division by zero. *)
Theorem C59_zero_modulus_refuted : ~ (forall calc base fs max, max < 2 ^ 64 -> get_hash_mod calc base fs max <> None).
Proof. intros H. apply (H (fun _ => 0) 0 [] 0); [reflexivity|vm_compute; reflexivity]. Qed.
Print Assumptions C59_zero_modulus_refuted.
Example C59_run : build_buffer [fld 3 5; fld 9 (-1); fld 4 2] = Some [0xbf; 0xf2] /\ build_buffer [fld 3 5; fld 9 3] = Some [0x0a; 0x03] /\
  get_hash_mod (fun b => fold_left N.add b 100) 50 [fld 3 5; fld 9 3] 7 = Some 51.
Proof. vm_compute. auto. Qed.
