(** C73: the primitives of simple_switch that use an index, a length or a range. *)
From Coq Require Import List Arith NArith ZArith Bool Lia.
From Verif Require Import Base DataModel PhvModel RegModel StfModel StfSpec StfProofs StfProofs2.
Import ListNotations.

Section T.
Variable M : Type.
Variable exec : M -> N -> N -> M * Z.
Notation run_pkts := (run_pkts M exec).

(** Every counter counts the packets whose index is its position, whatever the other calls do; other indices change no counter. *)
Theorem C73_counters : forall dbg A l A' r a i, run_pkts dbg A l = Some (A', r) -> Forall index32 (trace r) ->
  (forall c, counter_at A a i = Some c -> (fst c < 2 ^ 64 /\ snd c < 2 ^ 64)%N) ->
  counter_at A' a i =
    option_map (fun c => ((fst c + bytes_counted a i (trace r)) mod 2 ^ 64, (snd c + packets_counted a i (trace r)) mod 2 ^ 64)%N) (counter_at A a i).
Proof. intros. eapply steps_counter; eauto. eapply run_pkts_steps; eauto. Qed.

(** Every meter is in the state that the calls with its position as index lead to, and a call gets the color of that meter; a call with an index past the
    end gives no color and changes no meter. *)
Theorem C73_meters : forall dbg A l A' r a i, run_pkts dbg A l = Some (A', r) -> Forall index32 (trace r) ->
  meter_at A' a i = option_map (fun m => meter_after exec a i m (trace r)) (meter_at A a i) /\
  (forall before ev d after, trace r = before ++ ev :: after -> ev_prim ev = PMeter Z a (Z.of_nat i) d ->
    ev_res ev = option_map (fun m => snd (exec (meter_after exec a i m before) (ev_len ev) (ev_now ev))) (meter_at A a i)).
Proof.
  intros dbg A l A' r a i H HF. pose proof (run_pkts_steps _ _ _ _ _ _ _ H) as S. split. { eapply steps_meter; eauto. }
  intros before ev d after E P. rewrite E in *. apply steps_mid in S. destruct S as (A1 & k & en & A3 & k3 & S1 & S2 & -> & ->).
  rewrite P in S2. apply Forall_app in HF. destruct HF as [HF1 HF2]. inversion HF2; subst.
  rewrite (step_color _ _ _ _ _ _ _ _ _ _ _ _ S2) by (apply H2; rewrite P; reflexivity).
  rewrite Nat2Z.id, (steps_meter _ _ _ _ _ _ _ _ S1 HF1). destruct (meter_at A a i); reflexivity.
Qed.

(** Every register holds the last value written with its position as index, and a read gets that value; with an index past the end a read gives nothing and a
    write changes no register. *)
Theorem C73_registers : forall dbg A l A' r a i w, run_pkts dbg A l = Some (A', r) -> Forall index32 (trace r) -> reg_width A a = Some w ->
  reg_at A' a i = option_map (fun v => reg_after w a i v (trace r)) (reg_at A a i) /\
  (forall before ev d after, trace r = before ++ ev :: after -> ev_prim ev = PRead Z d a (Z.of_nat i) ->
    ev_res ev = option_map (fun v => reg_after w a i v before) (reg_at A a i)).
Proof.
  intros dbg A l A' r a i w H HF Hw. pose proof (run_pkts_steps _ _ _ _ _ _ _ H) as S. split. { eapply steps_reg; eauto. }
  intros before ev d after E P. rewrite E in *. apply steps_mid in S. destruct S as (A1 & k & en & A3 & k3 & S1 & S2 & _ & _).
  rewrite P in S2. apply Forall_app in HF. destruct HF as [HF1 HF2]. inversion HF2; subst.
  rewrite (step_read _ _ _ _ _ _ _ _ _ _ _ _ S2) by (apply H2; rewrite P; reflexivity).
  rewrite Nat2Z.id. apply (steps_reg _ _ _ _ _ _ _ _ _ S1 HF1 Hw).
Qed.

(** Each packet runs its calls in order on the values that its previous calls left in its fields; its fields end with the last value given to them, and
    its size is the smallest length asked for. *)
Theorem C73_packets : forall dbg A l A' r, run_pkts dbg A l = Some (A', r) -> length r = length l /\
  forall n k ps, nth_error l n = Some (k, ps) -> exists k' tr, nth_error r n = Some (k', tr) /\ length tr = length ps /\
    (forall m p e, nth_error ps m = Some (p, e) -> exists ev, nth_error tr m = Some ev /\ says k (firstn m tr) p (ev_prim ev) /\
       ev_now ev = e_now e /\ ev_len ev = k_len k) /\
    (forall j, nth_error (k_fields k') j = option_map (fun f => (fst f, field_after (fst f) j (snd f) tr)) (nth_error (k_fields k) j)) /\
    ((forall e v, In e tr -> ev_prim e = PTrunc Z v -> 0 <= v < 2 ^ 64)%Z -> pkt_size k' = shortest (pkt_size k) tr).
Proof.
  intros dbg A l A' r H. split. { eapply run_pkts_length; eauto. }
  intros n k ps E. destruct (run_pkts_nth _ _ _ _ _ _ _ _ _ _ H E) as (B & B' & k' & tr & E1 & E2). exists k', tr. split; auto.
  destruct (run_prims_follows _ _ _ _ _ _ _ _ _ _ _ (follows_refl k) E2) as (F & L & O). cbn [app] in *. split; auto. split; auto.
  destruct F as (_ & D & _ & F & T). split; auto. intros HT. unfold pkt_size. rewrite D, (T HT).
  clear. generalize (Z.of_N (k_data k)), (k_trunc k). induction tr as [|e tr IH]; intros x y; cbn [shortest]; auto.
  destruct (ev_prim e); try apply IH. etransitivity; [apply IH|]. f_equal. lia.
Qed.

(** The values given to the destination by modify_field, by the random generator and by the hash: the operand; a number between the bounds, or nothing
    if there is none; the base plus the hash modulo the size. *)
Theorem C73_values : forall dbg A l A' r n m k ps p e k' tr ev, run_pkts dbg A l = Some (A', r) -> nth_error l n = Some (k, ps) ->
  nth_error ps m = Some (p, e) -> nth_error r n = Some (k', tr) -> nth_error tr m = Some ev ->
  match ev_prim ev with
  | PSet _ _ v => ev_res ev = Some v
  | PRng _ _ lo hi => (lo < 2 ^ 64 -> hi < 2 ^ 64 -> if lo <=? hi then exists v, ev_res ev = Some v /\ lo <= v <= hi else ev_res ev = None)%Z
  | PHash _ _ b s => (s < 2 ^ 64 -> b + Z.max 1 s <= 2 ^ 64 -> ev_res ev = Some (b + e_hash e mod Z.max 1 s))%Z
  | PMeter _ _ _ _ | PRead _ _ _ _ => True
  | _ => ev_res ev = None
  end.
Proof.
  intros dbg A l A' r n m k ps p e k' tr ev H En Em Er Et.
  destruct (run_pkts_nth _ _ _ _ _ _ _ _ _ _ H En) as (B & B' & k1 & tr1 & E1 & E2). rewrite Er in E1. inversion E1; subst. clear H En Er E1.
  assert (exists B k q k2 B2, prim_step M exec dbg e B k q = Some (B2, k2, ev_res ev) /\ ev_prim ev = q) as (C & k2 & q & k3 & C2 & S & Q).
  { revert m B k B' k1 tr1 E2 Em Et. induction ps as [|[p0 e0] ps IH]; intros m B k0 B' k1 tr1 E2 Em Et. { destruct m; discriminate. }
    cbn [StfModel.run_prims] in E2. bsplit E2. bsplit E2. bsplit E2. destruct x0 as [[A1 k2] r2], x1 as [[A2 k3] t]. cbn [fst snd] in *.
    inversion E2; subst; clear E2. destruct m as [|m]; cbn in Em, Et.
    - inversion Em; inversion Et; subst. cbn. eauto 8.
    - eapply IH; eauto. }
  rewrite Q. unfold StfModel.prim_step in S. destruct q; auto.
  - repeat bsplit S. destruct x0; repeat bsplit S; inversion S; auto.
  - repeat bsplit S. destruct x0; repeat bsplit S; inversion S; auto.
  - repeat bsplit S. inversion S; auto.
  - intros H1 H2. bsplit S. bsplit S. apply get_u64_some in H, H0. destruct H as [G1 ->], H0 as [G2 ->]. rewrite !Z.mod_small in S by lia.
    rewrite Z.gtb_ltb in S. destruct (Z.leb_spec lo hi); destruct (Z.ltb_spec hi lo); try lia.
    + bsplit S. inversion S. eexists; split; [reflexivity|]. unfold draw. pose proof (Z.mod_pos_bound (e_draw e) (hi - lo + 1)). lia.
    + inversion S; auto.
  - intros H1s H1. bsplit S. bsplit S. cbv zeta in S. bsplit S. apply get_u64_some in H, H0. destruct H as [G1 ->], H0 as [G2 ->].
    inversion S; subst. rewrite (Z.mod_small base), (Z.mod_small size) by lia.
    replace (if (size =? 0)%Z then 1%Z else size) with (Z.max 1 size) by (destruct (Z.eqb_spec size 0); lia).
    pose proof (Z.mod_pos_bound (e_hash e) (Z.max 1 size)). rewrite Z.mod_small by (change two64 with (2 ^ 64)%Z; lia). f_equal. lia.
  - bsplit S. inversion S; auto.
Qed.

(** Built with its assertions, the switch does not stop on any index. *)
Theorem C73_debug_runs : forall A l, program_ok A l -> exists r, run_pkts true A l = Some r.
Proof. intros. eapply run_pkts_ok; eauto. Qed.
(** Built without (NDEBUG), it does the same as long as every index is one of the array's, and never something else. *)
Theorem C73_release_same : forall A l A' r,
  (run_pkts false A l = Some (A', r) -> run_pkts true A l = Some (A', r)) /\
  (run_pkts true A l = Some (A', r) -> Forall (in_range A) (trace r) -> run_pkts false A l = Some (A', r)).
Proof. intros. split; intros. - apply run_pkts_release; auto. - apply run_pkts_debug; auto. Qed.
End T.

(** ** Findings and instances *)
(** A toy meter: the number of bytes so far; color 2 above 100 *)
Definition toy (m len now : N) : N * Z := ((m + len)%N, if (100 <? m + len)%N then 2%Z else 0%Z).
Definition e0 : env := mk_env 0 7 12345.
Definition A0 : arrays N := mk_ars N [[(0, 0); (5, 1)]%N] [[0; 0]%N] [ra_new 8 3].
(** A packet with a field of 64 bits, one of 8 and one of 4 *)
Definition pk (x : Z) : pkt := pkt_new 60 60 [(64, x); (8, 0%Z); (4, 0%Z)].

(** Built without assertions, the switch does not survive every index. *)
Theorem C73_release_runs_refuted :
  ~ (forall (A : arrays N) l, program_ok A l -> exists r, run_pkts N toy false A l = Some r).
Proof.
  intros H. destruct (H A0 [(pk 2, [(PCount src 0 (SF 0), e0)])]) as [r Hr]; [|discriminate Hr].
  repeat constructor; cbn; lia.
Qed.

(** An index of 2^32 or more, which a P4 program can give, is not past the end: it counts at another position. *)
Theorem C73_wide_index_refuted :
  ~ (forall (A : arrays N) l A' r a i, run_pkts N toy true A l = Some (A', r) ->
     (forall c, counter_at A a i = Some c -> (fst c < 2 ^ 64 /\ snd c < 2 ^ 64)%N) ->
     (forall e j, In e (trace r) -> index_of (ev_prim e) = Some j -> 0 <= j)%Z ->
     counter_at A' a i =
       option_map (fun c => ((fst c + bytes_counted a i (trace r)) mod 2 ^ 64, (snd c + packets_counted a i (trace r)) mod 2 ^ 64)%N) (counter_at A a i)).
Proof.
  intros H. specialize (H A0 [(pk (2 ^ 32 + 1), [(PCount src 0 (SF 0), e0)])] _ _ 0 1 eq_refl).
  assert (E := H). clear H. lapply E.
  - clear E. intros E. lapply E.
    + clear E. intros E. vm_compute in E. discriminate E.
    + intros e j [<-|[]] [= <-]. vm_compute. discriminate.
  - intros c [= <-]. split; reflexivity.
Qed.

(** A length of 2^64 or more is cut to 64 bits: it can leave nothing of the packet. *)
Theorem C73_wide_length_refuted :
  ~ (forall (A : arrays N) k ps A' k' tr, run_pkts N toy true A [(k, ps)] = Some (A', [(k', tr)]) ->
     (forall e v, In e tr -> ev_prim e = PTrunc Z v -> 0 <= v)%Z -> pkt_size k' = shortest (pkt_size k) tr).
Proof.
  intros H. specialize (H A0 (pk 0) [(PTrunc src (SC (2 ^ 64)), e0)] _ _ _ eq_refl).
  assert (E := H). clear H. lapply E.
  - clear E. intros E. vm_compute in E. discriminate E.
  - intros e v [<-|[]] [= <-]. vm_compute. discriminate.
Qed.

(** Two packets: meters, counters, registers, a random value used as index, a hash *)
Definition prog : list (prim src * env) :=
  [(PMeter src 0 (SC 1) 2, e0); (PRng src 1 (SC 1) (SC 2), e0); (PWrite src 0 (SF 1) (SF 0), e0); (PRead src 0 0 (SC 2), e0);
   (PCount src 0 (SC 1), e0); (PCount src 0 (SC 9), e0); (PHash src 1 (SC 10) (SC 4), e0); (PTrunc src (SC 20), e0); (PTrunc src (SC 30), e0)].
Definition hist := [(pk 300, prog); (pk 5, prog)].
Example C73_program : program_ok A0 hist.
Proof. repeat constructor; cbn; lia. Qed.
Example C73_run : match run_pkts N toy true A0 hist with
  | Some (A', r) => counter_at A' 0 1 = Some (125, 3)%N /\ counter_at A' 0 0 = Some (0, 0)%N /\ meter_at A' 0 1 = Some 120%N /\ reg_at A' 0 2 = Some 5%Z /\
      map (fun x => (map snd (k_fields (fst x)), pkt_size (fst x))) r = [([44; 11; 0], 20); ([5; 11; 2], 20)]%Z
  | None => False
  end.
Proof. vm_compute. auto 10. Qed.
Example C73_indices : forall A' r, run_pkts N toy true A0 hist = Some (A', r) -> Forall index32 (trace r).
Proof. intros A' r H. vm_compute in H. inversion H; subst. unfold trace; cbn [flat_map snd app]. repeat (apply Forall_cons; [intros i E; inversion E; subst; lia|]). apply Forall_nil. Qed.

Print Assumptions C73_counters.
Print Assumptions C73_meters.
Print Assumptions C73_registers.
Print Assumptions C73_packets.
Print Assumptions C73_values.
Print Assumptions C73_debug_runs.
Print Assumptions C73_release_same.
Print Assumptions C73_release_runs_refuted.
Print Assumptions C73_wide_index_refuted.
Print Assumptions C73_wide_length_refuted.
