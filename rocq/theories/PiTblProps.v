(** C68: the PI calls on match tables. *)
From Coq Require Import List Arith NArith ZArith Bool Lia.
From Verif Require Import Base Bits Bytes EntryListModel MatchUnitModel KeyBuilderModel KeyBuilderSpec
  PiTblModel PiTblSpec PiTblProofs PiTblProofs2 PiTblProofs3 PiTblProofs4.
Import ListNotations.

(** Every sequence of calls and packets is answered, every answer is the one the specification
    allows, and the process survives. *)
Theorem C68_history : forall (V : Type) kd fs ks size cache (ops : list (xop V)),
  agree kd fs ks -> (N.of_nat size <= 2 ^ 24)%N -> Forall (xop_ok fs ks) ops ->
  exists u outs T, x_run kd fs ks (mu_new kd size cache) ops = (u, outs) /\
    x_spec_run kd fs ks size (fun _ => None) ops outs T.
Proof.
  intros V kd fs ks size cache ops AG SZ O.
  apply (x_run_ok kd fs ks size cache AG SZ ops _ _ (XR_new kd fs ks size cache) O).
Qed.
Print Assumptions C68_history.

(** The key of a client's message: refused exactly when a match makes no sense, and otherwise an
    entry that a packet matches exactly when every one of the client's matches holds. *)
Theorem C68_key : forall kd fs ks ms prio phv,
  agree kd fs ks -> Forall2 fits fs ms -> (prio <= prio_limit)%N -> phv_ok ks phv ->
  (~ Forall2 sensible fs ms /\ x_key kd fs ks (wire fs ms) prio = Some (inl tt)) \/
  (Forall2 sensible fs ms /\ exists k ps, x_key kd fs ks (wire fs ms) prio = Some (inr k) /\
     (EntryListSpec.key_matches kd (key_bytes ks) k (kb_key (kb_build ks) phv) <-> all_hold phv fs ks ms) /\
     kb_to_params kd (kb_build ks) k = Some ps /\ emit_match_key ps = wire fs (canon_ms kd fs ms) /\
     emit_priority (entry_priority kd k) = Some (match kd with KExact | KLpm => 0%N | _ => prio end)).
Proof.
  intros kd fs ks ms prio phv AG F P HP. destruct (sensible_dec fs ms F) as [S|S].
  - right. split; auto. destruct (read_of kd fs ks AG ms prio F S) as (ps & R & E).
    exists (key_of kd fs ks ms prio), ps. split; [apply build_ok; auto|].
    split; [apply match_of; auto|]. split; auto. split; auto. apply prio_of; auto.
  - left. split; auto. apply build_bad; auto.
Qed.
Print Assumptions C68_key.

(** The form given back asks the same of packets as the form written. *)
Theorem C68_canonical : forall kd fs ks ms phv,
  agree kd fs ks -> Forall2 fits fs ms -> Forall2 sensible fs ms ->
  (all_hold phv fs ks ms <-> all_hold phv fs ks (canon_ms kd fs ms)) /\
  same fs ms (canon_ms kd fs ms).
Proof.
  intros kd fs ks ms phv AG F S. destruct AG as (_ & A & _). revert ms F S.
  induction A as [|f k fs ks A1 A IH]; intros ms F S; inversion F as [|? m ? ms' H1 H2]; subst; cbn [canon_ms same].
  - split; [split; constructor|exact I].
  - inversion S; subst. destruct (IH ms' ltac:(auto) ltac:(auto)) as [I1 I2].
    assert (Q : (holds1 f (field_value k phv) m <-> holds1 f (field_value k phv) (canon1 kd f m)) /\ same1 f m (canon1 kd f m)).
    { destruct m; cbn [canon1 holds1 same1]; cbv zeta; try (split; [reflexivity|auto]).
      - destruct kd; cbn [holds1 same1]; cbv zeta; rewrite ?N.shiftr_shiftl_l, ?N.sub_diag, ?N.shiftl_0_r by lia;
          (split; [reflexivity|auto]).
      - rewrite <- N.land_assoc, N.land_diag. split; [reflexivity|auto]. }
    destruct Q as [Q1 Q2]. split; [|auto].
    split; intros X; inversion X; subst; constructor; tauto.
Qed.
Print Assumptions C68_canonical.

(** Fetching by key does not refuse a priority above the limit, as the other calls do: it stops
    the process. *)
Theorem C68_fetch_priority_refuted :
  ~ (forall (V : Type) kd fs ks size (u : munit V) key ms prio,
       agree kd fs ks -> (0 < size)%nat -> keyed fs key ms -> (prio < 2 ^ 32)%N ->
       u = mu_new kd size false ->
       exists r, x_step kd fs ks u (XFetchKey key prio) = Some r).
Proof.
  intros H.
  assert (AG : agree KTernary [mkPif PTernary 8] [mkF TTernary 8 None 0]).
  { split; [discriminate|]. split; [repeat constructor|]. split.
    - split; [|split; [repeat constructor; discriminate|discriminate]].
      constructor; [|constructor]. split; [cbn; lia|]. split; [cbn; lia|]. split; [discriminate|discriminate].
    - split; [split; [intros _; constructor; exact I|intros _; exact I]|].
      constructor; [|constructor]. split; [discriminate|reflexivity]. }
  assert (KD : keyed [mkPif PTernary 8] (wire [mkPif PTernary 8] [PMTernary 5 15]) [PMTernary 5 15]).
  { split; [|reflexivity]. constructor; [split; reflexivity|constructor]. }
  destruct (H unit KTernary _ _ 4 (mu_new KTernary 4 false) _ [PMTernary 5 15] 2147483648%N AG ltac:(lia)
              KD eq_refl eq_refl) as [r E].
  vm_compute in E. discriminate.
Qed.
Print Assumptions C68_fetch_priority_refuted.

(** A handle of more than 32 bits is cut down: it is taken for another entry's handle. *)
Theorem C68_wide_handle_refuted :
  ~ (forall (V : Type) kd fs ks size (ops : list (xop V)) h,
       agree kd fs ks -> (0 < size)%nat -> Forall (xop_ok fs ks) ops -> (2 ^ 32 <= h)%N ->
       ~ In (XHandle h) (snd (x_run kd fs ks (mu_new kd size false) ops)) ->
       exists u' c, x_step kd fs ks (fst (x_run kd fs ks (mu_new kd size false) ops)) (XDel h) = Some (u', XErr c)).
Proof.
  intros H.
  assert (AG : agree KExact [mkPif PExact 8] [mkF TExact 8 None 0]).
  { split; [discriminate|]. split; [repeat constructor|]. split.
    - split; [|split; [constructor; [right; reflexivity|constructor]|discriminate]].
      constructor; [|constructor]. split; [cbn; lia|]. split; [cbn; lia|]. split; [discriminate|discriminate].
    - split; [split; [intros []|intros X; inversion X as [? ? Y|? ? Y]; [exact Y|inversion Y]]|].
      constructor; [|constructor]. split; [discriminate|reflexivity]. }
  destruct (H unit KExact _ _ 4 [XAdd 0%N [7]%N 0%N tt] 4294967296%N AG ltac:(lia)) as (u & c & E).
  - constructor; [|constructor]. exists [PMExact 7]. split; [constructor; [reflexivity|constructor]|reflexivity].
  - apply N.le_refl.
  - vm_compute. intros [X|[]]. discriminate.
  - vm_compute in E. discriminate.
Qed.
Print Assumptions C68_wide_handle_refuted.

(** ** Concrete cases: a table with one field of each kind that may share a table. *)
Definition ex_pfs : list pif := [mkPif PLpm 16; mkPif PTernary 9; mkPif PExact 12; mkPif PRange 16; mkPif PValid 1].
Definition ex_kfs : list kfield :=
  [mkF TLpm 16 None 0; mkF TTernary 9 None 1; mkF TExact 12 None 2; mkF TRange 16 None 3; mkF TValid 8 None 4].
Example ex_agree : agree KRange ex_pfs ex_kfs.
Proof.
  split; [discriminate|]. split; [repeat constructor|]. split.
  - split; [|split; [repeat constructor|discriminate]].
    unfold ex_kfs. repeat (apply Forall_cons); try apply Forall_nil;
      (split; [cbn; lia|split; [cbn; lia|split; [discriminate|intros E; first [discriminate E|split; reflexivity]]]]).
  - split.
    + split; [intros _|intros _; exact I]. unfold ex_pfs. apply Exists_cons_tl, Exists_cons_hd. exact I.
    + unfold ex_pfs. repeat (apply Forall_cons); try apply Forall_nil; (split; [intros E; first [discriminate E|reflexivity]|reflexivity]).
Qed.
Definition ex_ms (v : N) : list pmatch := [PMLpm 0xA1B2 8; PMTernary 0x1FF 0x0F; PMExact v; PMRange 10 20; PMValid true].
Definition ex_phv (i : nat) : pfield :=
  match i with
  | 0 => mkPF true false [0xA1; 0]%N
  | 1 => mkPF true false [0; 0x3F]%N
  | 2 => mkPF true false [0; 7]%N
  | 3 => mkPF true false [0; 15]%N
  | _ => mkPF true false []
  end.
Definition ex_ops : list (xop nat) :=
  [XAdd 0%N (wire ex_pfs (ex_ms 7)) 5%N 1; XAdd 0%N (wire ex_pfs (ex_ms 7)) 9%N 2; XAdd 0%N (wire ex_pfs (ex_ms 7)) 9%N 3;
   XPacket 0%N 60%N ex_phv; XFetch 0%N; XDelKey (wire ex_pfs (ex_ms 7)) 9%N; XPacket 0%N 60%N ex_phv;
   XFetchKey (wire ex_pfs (ex_ms 8)) 9%N; XAdd 0%N (wire ex_pfs (ex_ms 8)) 2147483648%N 2].
Example ex_ops_ok : Forall (xop_ok ex_pfs ex_kfs) ex_ops.
Proof.
  assert (K : forall v, (v < 4096)%N -> exists ms, keyed ex_pfs (wire ex_pfs (ex_ms v)) ms).
  { intros v Hv. exists (ex_ms v). split; auto. unfold ex_pfs, ex_ms. repeat (apply Forall2_cons); try apply Forall2_nil;
      first [exact I|exact Hv|split; reflexivity]. }
  assert (PK : phv_ok ex_kfs ex_phv).
  { unfold phv_ok, ex_kfs. repeat (apply Forall_cons); try apply Forall_nil; intros X; try (exfalso; apply X; reflexivity);
      (split; [repeat constructor|split; reflexivity]). }
  unfold ex_ops.
  repeat (apply Forall_cons; [cbn [xop_ok];
    first [exact PK|apply K; reflexivity|reflexivity|split; [apply K; reflexivity|discriminate]]|]).
  apply Forall_nil.
Qed.
Example ex_run : snd (x_run KRange ex_pfs ex_kfs (mu_new KRange 4 false) ex_ops) =
  [XHandle 0; XHandle 1; XErr MDuplicate; XHit 1 2%nat;
   XEntry 0 5 (wire ex_pfs [PMLpm 0xA100 8; PMTernary 0x0F 0x0F; PMExact 7; PMRange 10 20; PMValid true]) 1%nat;
   XOk; XHit 0 1%nat; XNoEntry; XUnsupported]%N.
Proof. vm_compute. reflexivity. Qed.
