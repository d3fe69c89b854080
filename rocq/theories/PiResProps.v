(** C69: time to live, direct counters and direct meters of table entries in the PI layer. *)
From Coq Require Import List Arith NArith ZArith Bool Lia.
From Verif Require Import Base Bits EntryListModel EntryListSpec MatchUnitModel MatchUnitSpec
  MeterModel PiResModel PiResSpec PiResProofs.
Import ListNotations.

(** Every sequence of calls and packets is answered as the specification says, for any way of
    storing rates. *)
Theorem C69_history : forall (V RT : Type) (conv : N -> RT) back gt kd nbytes size cache mb
    counters meters ageing (ops : list (rop V)),
  (N.of_nat size <= 2 ^ 24)%N -> Forall (rop_ok kd nbytes) ops ->
  exists s outs a,
    r_run conv back gt kd nbytes counters meters ageing (r_new kd size cache mb) ops = Some (s, outs) /\
    r_spec_run (fun n => back (Some (conv n))) (fun c p => gt (conv c) (conv p))
      kd nbytes size counters meters ageing a_empty ops outs a.
Proof.
  intros V RT conv back gt kd nbytes size cache mb counters meters ageing ops SZ O.
  apply (run_px conv back gt kd nbytes size cache counters meters ageing SZ ops); auto.
  - exists 0%N. apply PR_new.
  - intros i. reflexivity.
Qed.
Print Assumptions C69_history.

(** ** Counter writes while packets are counted *)
Lemma traffic_run b p : forall es s, traffic es -> (w_bytes s < 2 ^ 64)%N -> (w_pkts s < 2 ^ 64)%N ->
  w_run b p s es = mkWS ((w_bytes s + sum_bytes es) mod 2 ^ 64) ((w_pkts s + sum_pkts es) mod 2 ^ 64) (w_pc s).
Proof.
  unfold w_run. induction es as [|e es IH]; intros s T B P; cbn [fold_left sum_bytes sum_pkts].
  - rewrite !N.add_0_r, !N.mod_small by assumption. destruct s; reflexivity.
  - assert (T' : traffic es) by (intros X; apply T; right; exact X).
    destruct e; cbn [w_step].
    + exfalso. apply T. left. reflexivity.
    + rewrite IH; cbn [w_bytes w_pkts w_pc]; auto; [|apply N.mod_lt; discriminate].
      rewrite N.add_mod_idemp_l, N.add_assoc by discriminate. reflexivity.
    + rewrite IH; cbn [w_bytes w_pkts w_pc]; auto; [|apply N.mod_lt; discriminate].
      rewrite N.add_mod_idemp_l, N.add_assoc by discriminate. reflexivity.
Qed.
Lemma run_app b p s e1 e2 : w_run b p s (e1 ++ e2) = w_run b p (w_run b p s e1) e2.
Proof. apply fold_left_app. Qed.
Lemma run_w b p s es : w_run b p s (WStep :: es) = w_run b p (w_step b p s WStep) es.
Proof. reflexivity. Qed.
Lemma sum_bytes_app a b : sum_bytes (a ++ b) = (sum_bytes a + sum_bytes b)%N.
Proof. induction a as [|e a IH]; cbn [app sum_bytes sum_pkts]; auto. destruct e; rewrite IH; lia. Qed.
Lemma sum_pkts_app a b : sum_pkts (a ++ b) = (sum_pkts a + sum_pkts b)%N.
Proof. induction a as [|e a IH]; cbn [app sum_bytes sum_pkts]; auto. destruct e; rewrite IH; lia. Qed.

Lemma run_seg b p B P pc e r : traffic e -> (B < 2 ^ 64)%N -> (P < 2 ^ 64)%N ->
  w_run b p (mkWS B P pc) (e ++ WStep :: r) =
  w_run b p (w_step b p (mkWS ((B + sum_bytes e) mod 2 ^ 64) ((P + sum_pkts e) mod 2 ^ 64) pc) WStep) r.
Proof. intros T HB HP. rewrite run_app, run_w, (traffic_run b p e) by (cbn [w_bytes w_pkts]; assumption). reflexivity. Qed.
Ltac go :=
  repeat (rewrite run_seg by (first [assumption|apply N.mod_lt; discriminate]);
          cbn [w_step w_bytes w_pkts w_pc merged]);
  rewrite traffic_run by (cbn [w_bytes w_pkts]; first [assumption|apply N.mod_lt; discriminate]);
  cbn [w_bytes w_pkts w_pc];
  rewrite ?sum_bytes_app, ?sum_pkts_app; rewrite ?N.add_mod_idemp_l, ?N.add_assoc by discriminate;
  do 3 (rewrite <- ?N.add_assoc; rewrite ?N.add_mod_idemp_l by discriminate); rewrite ?N.add_assoc.

(** A write of both units: each unit is the one written plus what was counted after its store. *)
Theorem C69_write_both : forall b0 p0 b p e1 e2 e3,
  (b0 < 2 ^ 64)%N -> (p0 < 2 ^ 64)%N -> (b < 2 ^ 64)%N -> (p < 2 ^ 64)%N ->
  traffic e1 -> traffic e2 -> traffic e3 ->
  w_run (Some b) (Some p) (mkWS b0 p0 WIdle) (e1 ++ WStep :: e2 ++ WStep :: e3) =
    mkWS ((b + sum_bytes (e2 ++ e3)) mod 2 ^ 64) ((p + sum_pkts e3) mod 2 ^ 64) WDone.
Proof. intros. go. reflexivity. Qed.
Print Assumptions C69_write_both.

(** A write of the packets only: the bytes miss exactly what was counted between the read and the
    store. *)
Theorem C69_write_packets : forall b0 p0 p e1 e2 e3 e4 e5,
  (b0 < 2 ^ 64)%N -> (p0 < 2 ^ 64)%N -> (p < 2 ^ 64)%N ->
  traffic e1 -> traffic e2 -> traffic e3 -> traffic e4 -> traffic e5 ->
  w_run None (Some p) (mkWS b0 p0 WIdle)
    (e1 ++ WStep :: e2 ++ WStep :: e3 ++ WStep :: e4 ++ WStep :: e5) =
    mkWS ((b0 + sum_bytes e1 + sum_bytes (e4 ++ e5)) mod 2 ^ 64) ((p + sum_pkts e5) mod 2 ^ 64) WDone.
Proof. intros. go. reflexivity. Qed.
Print Assumptions C69_write_packets.

(** A write of the bytes only, likewise. *)
Theorem C69_write_bytes : forall b0 p0 b e1 e2 e3 e4 e5,
  (b0 < 2 ^ 64)%N -> (p0 < 2 ^ 64)%N -> (b < 2 ^ 64)%N ->
  traffic e1 -> traffic e2 -> traffic e3 -> traffic e4 -> traffic e5 ->
  w_run (Some b) None (mkWS b0 p0 WIdle)
    (e1 ++ WStep :: e2 ++ WStep :: e3 ++ WStep :: e4 ++ WStep :: e5) =
    mkWS ((b + sum_bytes (e4 ++ e5)) mod 2 ^ 64)
         ((p0 + sum_pkts (e1 ++ e2) + sum_pkts e5) mod 2 ^ 64) WDone.
Proof. intros. go. reflexivity. Qed.
Print Assumptions C69_write_bytes.

(** Writing one unit of a counter loses packets of the other unit counted meanwhile. *)
Theorem C69_kept_unit_refuted :
  ~ (forall b0 p0 p es, (b0 + sum_bytes es < 2 ^ 64)%N -> (p0 < 2 ^ 64)%N -> (p < 2 ^ 64)%N ->
       w_pc (w_run None (Some p) (mkWS b0 p0 WIdle) es) = WDone ->
       w_bytes (w_run None (Some p) (mkWS b0 p0 WIdle) es) = (b0 + sum_bytes es)%N).
Proof.
  intros H. specialize (H 0%N 0%N 0%N [WStep; WAddB 64; WStep; WStep; WStep] eq_refl eq_refl eq_refl eq_refl).
  vm_compute in H. discriminate.
Qed.
Print Assumptions C69_kept_unit_refuted.

(** ** What goes wrong, on a table whose rates are kept as they are *)
Definition xrun (ops : list (rop nat)) : option (list (rout nat)) :=
  option_map snd (r_run (fun n => n) or_zero (fun a b => (b <? a)%N) KExact 1 true true true
                    (r_new KExact 4 false false) ops).
Definition key (n : N) : mkey := mkKey [n] [] 0 0 [].
Definition xok (ops : list (rop nat)) : Prop := Forall (rop_ok KExact 1) ops.

Ltac ok := unfold xok; repeat (apply Forall_cons; [cbn [rop_ok];
  repeat match goal with
  | |- _ /\ _ => split
  | |- Forall _ [] => apply Forall_nil
  | |- Forall _ (_ :: _) => apply Forall_cons
  | |- cfg_ok _ => cbn [cfg_ok]
  | |- spec_ok _ => split
  | |- (_ < _)%N => reflexivity
  | |- (_ < _)%N \/ _ => left; reflexivity
  | |- key_ok _ _ _ => split; [repeat constructor|split; [reflexivity|exact I]]
  | |- bytes_ok _ => repeat constructor
  | |- length _ = _ => reflexivity
  | |- True => exact I
  end|]); try apply Forall_nil.

(** An add that answers with an error may leave the entry in the table. *)
Theorem C69_refused_add_refuted :
  ~ (forall ops now k v t l ts len pk outs e x,
       xok (ops ++ [RAdd now k v t l; RPacket ts len pk]) ->
       xrun (ops ++ [RAdd now k v t l; RPacket ts len pk]) = Some (outs ++ [RErr e; x]) ->
       xrun (ops ++ [RPacket ts len pk]) = Some (outs ++ [x])).
Proof.
  intros H.
  assert (O : xok ([] ++ [RAdd 0 (key 7) 1%nat None [RMeter (mkMS 200 1 100 1)]; RPacket 0 64 [7%N]])) by ok.
  specialize (H [] 0%N (key 7) 1%nat None [RMeter (mkMS 200 1 100 1)] 0%N 64%N [7%N] [] EError (RHit 0 1%nat) O eq_refl).
  vm_compute in H. discriminate.
Qed.
Print Assumptions C69_refused_add_refuted.

(** A new entry for which no meter was given has the meter of the entry it replaced. *)
Theorem C69_fresh_meter_refuted :
  ~ (forall ops now k v outs h m,
       xok (ops ++ [RAdd now k v None []; RReadM h]) ->
       xrun (ops ++ [RAdd now k v None []; RReadM h]) = Some (outs ++ [RHandle h; RSpec m]) -> unset m).
Proof.
  intros H.
  assert (O : xok ([RAdd 0 (key 7) 1%nat None [RMeter (mkMS 5 6 7 8)]; RDel 0] ++
                   [RAdd 0 (key 9) 1%nat None []; RReadM 16777216])) by ok.
  assert (X := H _ _ _ _ [RHandle 0; ROk] 16777216%N (mkMS 5 6 7 8) O eq_refl). discriminate.
Qed.
Print Assumptions C69_fresh_meter_refuted.

(** The remaining time of an entry with more than 4294 ms left is wrong. *)
Theorem C69_time_left_refuted :
  ~ (forall ops now k v ms outs h x,
       xok (ops ++ [RAdd now k v (Some (now, ms * 10 ^ 6)%N) []; RTtl now h]) -> (0 < ms < 2 ^ 32)%N ->
       xrun (ops ++ [RAdd now k v (Some (now, ms * 10 ^ 6)%N) []; RTtl now h]) = Some (outs ++ [RHandle h; RLeft x]) ->
       x = (ms * 10 ^ 6)%N).
Proof.
  intros H.
  assert (O : xok ([] ++ [RAdd 0 (key 7) 1%nat (Some (0, 5000 * 10 ^ 6)%N) []; RTtl 0 0])) by ok.
  assert (X := H [] 0%N (key 7) 1%nat 5000%N [] 0%N 705032704%N O (conj eq_refl eq_refl) eq_refl). discriminate.
Qed.
Print Assumptions C69_time_left_refuted.

(** A time to live of less than a millisecond means that the entry never times out. *)
Theorem C69_short_ttl_refuted :
  ~ (forall ops now k v ns outs h x,
       xok (ops ++ [RAdd now k v (Some (now, ns)) []; RTtl now h]) -> (0 < ns)%N ->
       xrun (ops ++ [RAdd now k v (Some (now, ns)) []; RTtl now h]) = Some (outs ++ [RHandle h; RLeft x]) ->
       (x <= ns)%N).
Proof.
  intros H.
  assert (O : xok ([] ++ [RAdd 0 (key 7) 1%nat (Some (0, 999999)%N) []; RTtl 0 0])) by ok.
  assert (X := H [] 0%N (key 7) 1%nat 999999%N [] 0%N (2 ^ 64 - 1)%N O eq_refl eq_refl).
  apply X. reflexivity.
Qed.
Print Assumptions C69_short_ttl_refuted.

(** Modifying an entry with one unit of its counter given clears the other unit. *)
Theorem C69_modify_counter_refuted :
  ~ (forall ops h v p outs b1 p1 b2 p2,
       xok (ops ++ [RReadC h; RMod h v None [RCounter None (Some p)]; RReadC h]) ->
       xrun (ops ++ [RReadC h; RMod h v None [RCounter None (Some p)]; RReadC h]) =
         Some (outs ++ [RCnt b1 p1; ROk; RCnt b2 p2]) -> b2 = b1).
Proof.
  intros H.
  assert (O : xok ([RAdd 0 (key 7) 1%nat None []; RPacket 0 64 [7%N]] ++
                   [RReadC 0; RMod 0 2%nat None [RCounter None (Some 3%N)]; RReadC 0])) by ok.
  assert (X := H _ _ _ _ [RHandle 0; RHit 0 1%nat] 64%N 1%N 0%N 3%N O eq_refl). discriminate.
Qed.
Print Assumptions C69_modify_counter_refuted.

(** A refused meter configuration changes the meter. *)
Theorem C69_refused_meter_refuted :
  ~ (forall ops h m outs m1 e m2,
       xok (ops ++ [RReadM h; RSetM h m; RReadM h]) ->
       xrun (ops ++ [RReadM h; RSetM h m; RReadM h]) = Some (outs ++ [RSpec m1; RErr e; RSpec m2]) -> m2 = m1).
Proof.
  intros H.
  assert (O : xok ([RAdd 0 (key 7) 1%nat None [RMeter (mkMS 5 6 7 8)]] ++
                   [RReadM 0; RSetM 0 (mkMS 20 1 10 2); RReadM 0])) by ok.
  assert (X := H _ _ _ [RHandle 0] (mkMS 5 6 7 8) EError (mkMS 10 2 20 1) O eq_refl). discriminate.
Qed.
Print Assumptions C69_refused_meter_refuted.

(** ** A concrete history *)
Definition ex_ops : list (rop nat) :=
  [RAdd 10 (key 7) 1%nat (Some (10, 3000000000)%N) [RCounter (Some 100%N) (Some 2%N); RMeter (mkMS 100 10 200 20)];
   RAdd 11 (key 8) 2%nat None []; RPacket 20 64 [7%N]; RPacket 21 64 [8%N]; RReadC 0; RReadC 1; RWriteC 1 (Some 9%N) None;
   RReadC 1; RReadM 0; RReadM 1; RTtl 1020 0; RTtl 1020 1; RTtl 9000 0; RSetM 1 (mkMS 1 2 3 4); RReadM 1;
   RSetM 1 (mkMS (2 ^ 64 - 1) (2 ^ 32 - 1) (2 ^ 64 - 1) (2 ^ 32 - 1)); RReadM 1; RDel 1; RReadC 1; RMod 1 3%nat None [];
   RReadC (2 ^ 64 - 1)]%N.
Example ex_ok : xok ex_ops.
Proof. unfold ex_ops. ok. right. reflexivity. Qed.
Example ex_run : xrun ex_ops = Some
  [RHandle 0; RHandle 1; RHit 0 1%nat; RHit 1 2%nat; RCnt 164 3; RCnt 64 1; ROk; RCnt 9 1; RSpec (mkMS 100 10 200 20);
   RSpec (mkMS (2 ^ 64 - 1) (2 ^ 32 - 1) (2 ^ 64 - 1) (2 ^ 32 - 1)); RLeft 2000000000; RLeft (2 ^ 64 - 1); RLeft 0; ROk;
   RSpec (mkMS 1 2 3 4); ROk; RSpec (mkMS (2 ^ 64 - 1) (2 ^ 32 - 1) (2 ^ 64 - 1) (2 ^ 32 - 1)); ROk;
   RErr (EUnit MInvalid); RErr (EUnit MInvalid); RErr ENotImpl]%N.
Proof. vm_compute. reflexivity. Qed.
Example ex_race : w_run None (Some 5%N) (mkWS 10 1 WIdle) [WAddB 3; WAddP; WStep; WAddB 4; WStep; WStep; WAddB 1; WStep; WAddP]
  = mkWS 14 6 WDone.
Proof. vm_compute. reflexivity. Qed.
