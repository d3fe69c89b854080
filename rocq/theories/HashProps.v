(** C35 Toeplitz hash; C53 the other hashes. *)
From Coq Require Import List Arith NArith Bool Lia.
From Verif Require Import Base Bits Bytes PhvModel EntryListSpec CrcModel CrcProofs HashModel HashSpec HashProofs.
Import ListNotations.
Local Open Scope N_scope.

Definition top_ok (o : top) : Prop := match o with SetKey k => bytes_ok k | THash b => bytes_ok b end.
(** For every key and buffer, shorter or longer than the key, the hash is the XOR of the key windows at the set input bits. *)
Theorem C35_toeplitz : forall key buf, bytes_ok key -> legal_key key -> bytes_ok buf -> toeplitz (words key) buf = Some (toeplitz_spec key buf).
Proof. exact toeplitz_ok. Qed.
(** Every history of key changes and hashes: illegal keys are refused, each hash uses the last key accepted, at first four zero bytes. *)
Theorem C35_history : forall l, Forall top_ok l -> exists key outs, t_run t_new l = Some (Some (words key), outs) /\ t_spec [0; 0; 0; 0] l outs key.
Proof. intros l F. apply t_run_ok; auto; [repeat constructor|exists 1%nat; split; auto]. Qed.
(** The hash is linear. *)
Theorem C35_linear : forall key a b, bytes_ok key -> legal_key key -> bytes_ok a -> bytes_ok b -> length a = length b ->
  exists u v, toeplitz (words key) a = Some u /\ toeplitz (words key) b = Some v /\ toeplitz (words key) (map2 N.lxor a b) = Some (N.lxor u v).
Proof.
  intros key a b BK LK BA BB L. exists (toeplitz_spec key a), (toeplitz_spec key b). rewrite !toeplitz_ok; auto; [rewrite toeplitz_linear by auto; auto|].
  clear - BA BB. revert b BB. induction BA as [|x a X BA IH]; intros [|y b] BB; cbn [map2]; try constructor; inversion BB; subst; auto; [|apply IH; auto]. apply (lxor_lt x y 8); auto.
Qed.
(** A calculation of another type is never changed. *)
Theorem C35_wrong_type : forall k, t_step None (SetKey k) = Some (None, TWrongType).
Proof. reflexivity. Qed.
(** The Microsoft RSS verification suite: first IPv4 case, 66.9.149.187:2794 -> 161.142.100.80:1766. *)
Definition rss_key : list N := [0x6d;0x5a;0x56;0xda;0x25;0x5b;0x0e;0xc2;0x41;0x67;0x25;0x3d;0x43;0xa3;0x8f;0xb0;0xd0;0xca;0x2b;0xcb;0xae;0x7b;0x30;0xb4;0x77;0xcb;0x2d;0xa3;0x80;0x30;0xf2;0x0c;0x6a;0x42;0xb7;0x3b;0xbe;0xac;0x01;0xfa].
Definition rss_in : list N := [66;9;149;187;161;142;100;80;0x0a;0xea;0x06;0xe6].
Example C35_ex : toeplitz (words rss_key) rss_in = Some 0x51ccc178 /\ legal_key rss_key.
Proof. split; [vm_compute; reflexivity|exists 10%nat; split; [lia|reflexivity]]. Qed.
Example C35_ex_run : option_map snd (t_run t_new [THash rss_in; SetKey [1; 2; 3]; SetKey rss_key; THash rss_in; THash [0x80]]) = Some [TValue 0; TInvalidKey; TSuccess; TValue 0x51ccc178; TValue 0x6d5a56da].
Proof. vm_compute. reflexivity. Qed.

(** C53.  The XOR hash of n bytes (xor16: n = 2, xor32: n = 4). *)
Theorem C53_xor : forall n buf, (0 < n)%nat -> bytes_ok buf ->
  exists v, xor_hash n buf = Some v /\ v < 2 ^ N.of_nat (8 * n) /\ forall j, (j < 8 * n)%nat -> N.testbit v (N.of_nat (8 * n - 1 - j)) = xor_bit (8 * n) (bits_of_bytes buf) j.
Proof.
  intros n buf NP BO. destruct (xor_loop_ok n NP (length buf) buf 0 BO) as (v & E & L & B); [apply N.neq_0_lt_0, N.pow_nonzero; lia|lia|]. exists v. split; auto. split; auto. intros j J. rewrite B, N.bits_0 by auto. apply xorb_false_l.
Qed.
(** The identity hash is the value of the first eight bytes. *)
Theorem C53_identity : forall buf, bytes_ok buf -> identity buf = be_val (firstn 8 buf).
Proof. exact identity_ok. Qed.
(** The i-th call of round robin gives i modulo 2^64, whatever the inputs. *)
Theorem C53_round_robin : forall l i, (i < length l)%nat -> nth_error (rr_run 0 l) i = Some (N.of_nat i mod 2 ^ 64).
Proof. intros l i L. rewrite rr_ok by (auto; reflexivity). rewrite N.add_0_l. auto. Qed.
(** The consistent round robin. *)
Theorem C53_consistent : forall l, N.of_nat (length l) < 2 ^ 64 -> consistent l (rrc_run (0, []) l).
Proof. exact rrc_ok. Qed.
(** A hash-based offset lies in the interval asked for, when that fits 64 bits; a size of 0 counts as 1. *)
Theorem C53_offset : forall hash base size, base + N.max 1 size <= 2 ^ 64 ->
  base <= hash_offset hash base size < base + N.max 1 size /\ (hash_offset hash base size - base) mod (N.max 1 size) = hash mod (N.max 1 size).
Proof.
  intros h b s L. unfold hash_offset, trunc. change (N.of_nat 64) with 64. replace (if s =? 0 then 1 else s) with (N.max 1 s) by (destruct (N.eqb_spec s 0); lia). set (m := N.max 1 s) in *. assert (M : m <> 0) by lia. pose proof (N.mod_lt h m M) as H. pose proof (N.mod_mod h m M) as H2. set (q := h mod m) in *. clearbody q m. change (2 ^ 64) with 18446744073709551616 in *. rewrite (N.mod_small (q + b)) by lia. split; [lia|]. replace (q + b - b) with q by lia. auto.
Qed.
(** Every value of the interval is reached by hashes below the size. *)
Theorem C53_offset_onto : forall base size v, base + size <= 2 ^ 64 -> base <= v < base + size -> hash_offset (v - base) base size = v.
Proof.
  intros b s v L V. unfold hash_offset, trunc. change (N.of_nat 64) with 64. destruct (N.eqb_spec s 0); [lia|]. rewrite (N.mod_small (v - b)) by lia. change (2 ^ 64) with 18446744073709551616 in *. rewrite N.mod_small by lia. lia.
Qed.
Example C53_ex : xor_hash 2 [1; 2; 3; 4; 5] = Some 0x0706 /\ xor_hash 4 [1; 2; 3; 4; 5] = Some 0x04020304 /\ identity [1; 2] = 0x0102 /\
  rrc_run (0, []) [[1]; [2]; [1]; [3]; [2]] = [0; 1; 0; 2; 1] /\ rr_run 0 [[1]; [1]; [7]] = [0; 1; 2] /\ hash_offset 1000003 50 100 = 53.
Proof. vm_compute. repeat split. Qed.
Print Assumptions C35_toeplitz.
Print Assumptions C35_history.
Print Assumptions C35_linear.
Print Assumptions C53_xor.
Print Assumptions C53_identity.
Print Assumptions C53_round_robin.
Print Assumptions C53_consistent.
Print Assumptions C53_offset.
Print Assumptions C53_offset_onto.
