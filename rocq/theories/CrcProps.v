(** C34 CRC calculations. *)
From Coq Require Import List Arith NArith Bool Lia.
From Verif Require Import Base Bits Bytes PhvModel CrcTables CrcModel CrcSpec CrcProofs.
Import ListNotations.
Local Open Scope N_scope.

(** The specification determines the result. *)
Theorem C34_unique : forall w c buf v v', fits w c -> is_crc w c buf v -> is_crc w c buf v' -> v = v'.
Proof. intros w c buf v v' (F & _) (r & R & ->) (r' & R' & ->). rewrite (remainder_unique w (c_poly c) _ r r' F R R'). auto. Qed.
(** The configurable CRC, of any width of at least 8 bits: for every configuration and buffer the result is the CRC. *)
Theorem C34_custom : forall w c buf, (8 <= w)%nat -> fits w c -> bytes_ok buf ->
  exists v, crc_custom w c (make_table w (c_poly c)) buf = Some v /\ is_crc w c buf v /\ v < 2 ^ N.of_nat w.
Proof. intros. apply crc_ok; auto. Qed.
(** The constant tables are the tables of the polynomials. *)
Theorem C34_tables : table_crc16 = make_table 16 0x8005 /\ table_crc32 = make_table 32 0x04c11db7 /\ table_crcCCITT = make_table 16 0x1021.
Proof. vm_compute. auto. Qed.
(** The built-in CRCs. *)
Theorem C34_builtin : forall buf, bytes_ok buf ->
  (exists v, crc16 buf = Some v /\ is_crc 16 (mk_cfg 0x8005 0 0 true true) buf v) /\
  (exists v, crc32 buf = Some v /\ is_crc 32 (mk_cfg 0x04c11db7 0xffffffff 0xffffffff true true) buf v) /\
  (exists v, crcCCITT buf = Some v /\ is_crc 16 (mk_cfg 0x1021 0xffff 0 false false) buf v).
Proof.
  intros buf BO. split; [|split].
  - exact (crc_tbl 16 0x8005 0 0 true true _ buf ltac:(lia) ltac:(repeat split) BO (proj1 C34_tables)).
  - exact (crc_tbl 32 0x04c11db7 0xffffffff 0xffffffff true true _ buf ltac:(lia) ltac:(repeat split) BO (proj1 (proj2 C34_tables))).
  - exact (crc_tbl 16 0x1021 0xffff 0 false false _ buf ltac:(lia) ltac:(repeat split) BO (proj2 (proj2 C34_tables))).
Qed.
(** Every history of configuration updates and computations: a computation uses the last configuration accepted, an update for
    another width is refused and changes nothing. *)
Definition width_ok (w : nat) : Prop := In w [8; 16; 32; 64]%nat.
Definition cop_ok (o : cop) : Prop := match o with Update w c => fits w c | Compute buf => bytes_ok buf end.
Theorem C34_reconfigured : forall w l, width_ok w -> Forall cop_ok l ->
  exists c t outs, c_run (new_custom w) l = Some (Custom w c t, outs) /\ sc_run (w, default_config w) l outs (w, c).
Proof.
  intros w l WO. assert (W8 : (8 <= w)%nat) by (destruct WO as [<-|[<-|[<-|[<-|[]]]]]; lia). assert (F0 : fits w (default_config w)) by (destruct WO as [<-|[<-|[<-|[<-|[]]]]]; repeat split).
  unfold new_custom. revert F0. generalize (default_config w). induction l as [|o l IH]; intros c F OK.
  - exists c, (make_table w (c_poly c)), []. split; [auto|constructor].
  - inversion OK as [|? ? O1 O2]; subst. destruct o as [w' c'|buf]; cbn [c_run c_step].
    + destruct (Nat.eqb_spec w' w) as [->|NE]; cbn [bind fst snd].
      * destruct (IH c' O1 O2) as (c2 & t2 & outs & E & S). rewrite E. cbn [bind fst snd]. exists c2, t2, (Success :: outs). split; auto. eapply sr_cons; [|exact S]. cbn [sc_step fst snd]. rewrite Nat.eqb_refl. auto.
      * destruct (IH c F O2) as (c2 & t2 & outs & E & S). rewrite E. cbn [bind fst snd]. exists c2, t2, (WrongType :: outs). split; auto. eapply sr_cons; [|exact S]. cbn [sc_step fst snd]. rewrite (proj2 (Nat.eqb_neq _ _) NE). auto.
    + destruct (crc_ok w c buf W8 F O1) as (v & EV & CV & _). rewrite EV. cbn [bind fst snd]. destruct (IH c F O2) as (c2 & t2 & outs & E & S). rewrite E. cbn [bind fst snd]. exists c2, t2, (Hash v :: outs). split; auto. eapply sr_cons; [|exact S]. cbn [sc_step fst snd]. eauto.
Qed.
(** The check values of the CRC catalogue for "123456789": ARC, ISO-HDLC, IBM-3740, SMBUS. *)
Definition check_msg : list N := [49; 50; 51; 52; 53; 54; 55; 56; 57].
Example C34_ex : crc16 check_msg = Some 0xbb3d /\ crc32 check_msg = Some 0xcbf43926 /\ crcCCITT check_msg = Some 0x29b1 /\
  crc_custom 8 (default_config 8) (make_table 8 7) check_msg = Some 0xf4.
Proof. vm_compute. auto. Qed.
Example C34_ex_run : exists c t, c_run (new_custom 16) [Compute check_msg; Update 8 (mk_cfg 7 0 0 false false); Update 16 (mk_cfg 0x1021 0xffff 0 false false); Compute check_msg] = Some (Custom 16 c t, [Hash 0xbb3d; WrongType; Success; Hash 0x29b1]).
Proof. eexists. eexists. vm_compute. reflexivity. Qed.
Print Assumptions C34_unique.
Print Assumptions C34_custom.
Print Assumptions C34_tables.
Print Assumptions C34_builtin.
Print Assumptions C34_reconfigured.
