(** C32 Deparser. *)
From Coq Require Import List Arith NArith ZArith Bool Lia.
From Verif Require Import Base Bits Bytes EntryListSpec DataModel ExtractModel ExtractSpec ExtractProofs ExtractProps PhvModel PhvSpec PhvProofs PhvProofs4 PhvProofs5 PhvProps ParserModel ParserSpec ParserProofs ParserProofs2 ParserProofs5 ParserProps BufModel BufSpec BufProofs CksumModel CksumSpec CksumProps DeparseModel DeparseSpec DeparseProofs.
Import ListNotations.

(** Every header vector determines the bytes of its valid headers. *)
Theorem C32_encodings : forall (legacy : bool) (d : desc) (s : phv) (hs : list nat), wf d -> reach legacy d s -> (forall h, In h hs -> h < length (ds_h d)) ->
  exists parts, emits d s hs parts /\ forall parts', emits d s hs parts' -> parts' = parts.
Proof.
  intros legacy d s hs W R HS. pose proof (reach_INV _ _ _ W R) as I. destruct (emits_total d s hs I HS) as (ps & E). exists ps. split; auto. intros qs Q. eapply emits_fun; eauto.
Qed.
(** A deparser without method calls writes the checksums, then the packet is the encodings of the valid headers, in the order of the
    deparser, followed by the payload; when the buffer has no room for them it stops. *)
Theorem C32_deparse : forall (legacy : bool) (d : desc) (s s1 : phv) (cks : list (checksum * list N)) (hs : list nat) (parts : list (list N)) (old payload : list N),
  wf d -> reach legacy d s1 -> bytes_ok old -> bytes_ok payload -> update_checksums d cks payload s = Some s1 -> emits d s1 hs parts ->
  deparse legacy d cks [] hs old payload s = (if length (concat parts) <=? length old then Some (s1, concat parts ++ payload) else None).
Proof.
  intros legacy d s s1 cks hs ps old payload W R BO BP U E. pose proof (reach_INV _ _ _ W R) as I. unfold deparse. rewrite U. cbn [bind]. rewrite (emits_size _ _ _ _ I E). cbn [bind]. unfold prepend. destruct (Nat.leb_spec (length (concat ps)) (length old)) as [L|L]; [|auto]. cbn [bind methods].
  assert (LK : length (skipn (length old - length (concat ps)) old) = length (concat ps)) by (rewrite skipn_length; lia).
  pose proof (emit_spec d s1 hs ps I E [] (skipn (length old - length (concat ps)) old ++ payload)) as X. cbn [app length] in X. rewrite X.
  - cbn [bind]. rewrite skipn_app, LK, Nat.sub_diag. rewrite (skipn_all2 (skipn _ old)) by lia. auto.
  - apply bytes_ok_app; split; auto. apply bytes_ok_skipn; auto.
  - rewrite app_length. lia.
Qed.
(** With method calls, the headers written are those valid after the calls, but the room was made for those valid before. *)
Theorem C32_methods : forall (legacy : bool) (d : desc) (s s1 s2 : phv) (cks : list (checksum * list N)) (ms : list (phv -> list op)) (hs : list nat) (parts1 parts2 : list (list N)) (old payload : list N),
  wf d -> reach legacy d s1 -> reach legacy d s2 -> bytes_ok old -> bytes_ok payload -> update_checksums d cks payload s = Some s1 -> methods legacy d ms s1 = Some s2 ->
  emits d s1 hs parts1 -> emits d s2 hs parts2 -> length (concat parts1) <= length old ->
  (length (concat parts2) = length (concat parts1) -> deparse legacy d cks ms hs old payload s = Some (s2, concat parts2 ++ payload)) /\
  (length (concat parts2) <= length (concat parts1) + length payload ->
    deparse legacy d cks ms hs old payload s = Some (s2, concat parts2 ++ skipn (length (concat parts2)) (skipn (length old - length (concat parts1)) old ++ payload))).
Proof.
  intros legacy d s s1 s2 cks ms hs ps qs old payload W R R2 BO BP U MS E E2 L. pose proof (reach_INV _ _ _ W R) as I. pose proof (reach_INV _ _ _ W R2) as I2.
  assert (LK : length (skipn (length old - length (concat ps)) old) = length (concat ps)) by (rewrite skipn_length; lia).
  assert (G : length (concat qs) <= length (concat ps) + length payload -> deparse legacy d cks ms hs old payload s = Some (s2, concat qs ++ skipn (length (concat qs)) (skipn (length old - length (concat ps)) old ++ payload))).
  { intros LQ. unfold deparse. rewrite U. cbn [bind]. rewrite (emits_size _ _ _ _ I E). cbn [bind]. unfold prepend. rewrite (proj2 (Nat.leb_le _ _) L). cbn [bind]. rewrite MS. cbn [bind].
    pose proof (emit_spec d s2 hs qs I2 E2 [] (skipn (length old - length (concat ps)) old ++ payload)) as X. cbn [app length] in X. rewrite X; auto.
    - apply bytes_ok_app; split; auto. apply bytes_ok_skipn; auto.
    - rewrite app_length. lia. }
  split; auto. intros EQ. rewrite G by lia. rewrite skipn_app, LK, EQ, Nat.sub_diag. rewrite (skipn_all2 (skipn _ old)) by lia. auto.
Qed.
(** Updating checksums is a sequence of field assignments, and methods are header-vector operations: the vectors above are reachable. *)
Lemma store_step legacy d s h f v s' : store s h f v = Some s' -> field_exists d h f -> reach legacy d s -> reach legacy d s'.
Proof.
  intros E FE R. unfold store in E. destruct (nth_error (p_h s) h) as [x|] eqn:X; [|discriminate]. cbn [bind] in E. destruct (nth_error (d_fields x) f) as [o|]; [|discriminate]. cbn [bind] in E.
  eapply reach_step with (o := OSet h f (v mod 2 ^ Z.of_nat (fst o))%Z); eauto.
Qed.
Theorem C32_reachable : forall (legacy : bool) (d : desc) (cks : list (checksum * list N)) (ms : list (phv -> list op)) (payload : list N) (s s1 s2 : phv),
  wf d -> reach legacy d s -> (forall ck stack, In (ck, stack) cks -> field_exists d (ck_h ck) (ck_f ck)) -> (forall m s, In m ms -> Forall (op_ok d) (m s)) ->
  update_checksums d cks payload s = Some s1 -> reach legacy d s1 /\ (methods legacy d ms s1 = Some s2 -> reach legacy d s2) /\ exists s2', methods legacy d ms s1 = Some s2'.
Proof.
  intros legacy d cks ms payload s s1 s2 W R CF MF U. assert (R1 : reach legacy d s1).
  { clear MF. revert s R U. induction cks as [|[ck stack] cks IH]; intros s R U; cbn [update_checksums] in U; [injection U as <-; auto|]. destruct (ck_update d ck stack payload s) as [s'|] eqn:E; [|discriminate]. cbn [bind] in U.
    apply (IH (fun ck' st' IN => CF ck' st' (or_intror IN)) s'); auto. pose proof (CF ck stack (or_introl eq_refl)) as FE. unfold ck_update in E. destruct (ck_cond ck s); [|injection E as <-; auto]. unfold update_ in E. destruct (ck_kind ck) as [es wp hash|].
    - destruct (output d s es wp payload hash) as [c|]; [|discriminate]. cbn [bind] in E. eapply store_step; eauto.
    - destruct (hdr_valid d s (ck_h ck)) as [v|]; [|discriminate]. cbn [bind] in E. destruct (negb v); [injection E as <-; auto|]. destruct (nth_error (p_h s) (ck_h ck)) as [x|] eqn:X; [|discriminate]. cbn [bind] in E. destruct (ip_cksum stack x) as [c|]; [|discriminate]. cbn [bind] in E.
      destruct (nth_error (d_fields x) (ck_f ck)) as [o|]; [|discriminate]. cbn [bind] in E. destruct (_ =? 2); [|discriminate]. eapply reach_step with (o := OSet (ck_h ck) (ck_f ck) _); eauto. }
  split; auto. clear U. assert (G : forall s, reach legacy d s -> (forall s2, methods legacy d ms s = Some s2 -> reach legacy d s2) /\ exists s2', methods legacy d ms s = Some s2').
  { clear - W MF. induction ms as [|m ms IH]; intros s R; cbn [methods]; [split; [intros s2 [= <-]; auto|eauto]|]. pose proof (MF m s (or_introl eq_refl)) as OK. pose proof (reach_INV _ _ _ W R) as I.
    destruct (run_inv false legacy d (m s) W OK ltac:(discriminate) s I) as (s' & E & _). rewrite E. cbn [bind]. apply IH; [intros; apply MF; right; auto|]. eapply reach_run; eauto. }
  destruct (G s1 R1) as [A B]. split; auto.
Qed.

(** Parsing a packet and deparsing the result gives the packet back: for a parser that only extracts headers (checks and
    assigns metadata), a deparser that emits the extracted headers in the order of extraction, and headers
    extracted once.  Also when the parser stopped with an error. *)
Theorem C32_parse_deparse : forall (legacy : bool) (lx : nat -> option (phv -> Z)) (d : desc) (env : nat -> list vset) (pg : program) (fuel : nat) (data : list N) (s s' : phv) (payload : list N) (ev : list event) (e : perr) (hs : list nat) (old : list N),
  wf d -> wf_layout d -> bytes_ok data -> reach legacy d s -> fresh d s -> prog_ok d pg -> (forall p, In p (pg_states pg) -> Forall (plain d) (st_ops p)) ->
  parse legacy lx d env pg fuel data s = Done s' payload ev e -> once d (extracted_headers ev) -> follows d hs (extracted_headers ev) ->
  bytes_ok old -> length data <= length old + length payload ->
  deparse legacy d [] [] hs old payload s' = Some (s', data).
Proof.
  intros legacy lx d env pg fuel data s s' payload ev e hs old W WL BD R FR PO PL E [ND NS] [HR FE] BO LO. pose proof (reach_INV _ _ _ W R) as I.
  destruct (C29_accounts _ _ _ _ _ _ _ _ _ _ _ _ W WL BD R PO E) as ((ps & EQ & AC) & R'). pose proof (reach_INV _ _ _ W R') as I'.
  assert (P0 : PI d s []).
  { constructor; [intros l1 h fs l2 X; destruct l1; discriminate|intros h t x T X M V; rewrite (FR h t x T X M) in V; discriminate|intros h []|intros n []]. }
  assert (P : PI d s' ev). { unfold parse in E. destruct (pg_init pg) as [i|]; [|injection E as <- <- <- <-; auto]. exact (loop_PI legacy lx d data W WL BD env pg PO PL fuel _ _ _ _ _ _ _ _ I (Nat.le_0_l _) E P0). }
  destruct P as [P1 P2 P3 P4].
  assert (PV : forall h fs, In (EvHdr h fs) ev -> exists x, H s' h = Some x /\ d_valid x = true /\ d_fields x = fs).
  { intros h fs IN. apply in_split in IN as (l1 & l2 & EV). apply (P1 l1 h fs l2 EV). intros k IK. subst ev. change extracted_headers with eh in *. rewrite eh_app in *. cbn [eh extracted_headers map ev_hdr concat app] in ND, NS. fold (extracted_headers l2) in ND, NS. change (extracted_headers l2) with (eh l2) in *. split.
    - intros ->. apply NoDup_remove_2 in ND. apply ND. apply in_or_app. auto.
    - apply NS; apply in_or_app; right; [right|left]; auto. }
  assert (BPS : Forall bytes_ok ps /\ bytes_ok payload).
  { subst data. apply bytes_ok_app in BD as [BD BPY]. split; auto. clear - BD. induction ps as [|p ps IH]; auto. cbn [concat] in BD. apply bytes_ok_app in BD as [A B]. auto. }
  destruct BPS as [BPS BPL].
  assert (EM : emits d s' hs ps).
  { apply (pieces_emit d s' hs ev); auto. transitivity (filter (fun h => existsb (Nat.eqb h) (extracted_headers ev)) hs); auto. apply filter_ext_in. intros h IN. destruct (HR h IN) as [LH NM]. destruct (H_get _ _ _ h I' LH) as (x & X). rewrite X.
    destruct (existsb (Nat.eqb h) (extracted_headers ev)) eqn:EX.
    - apply existsb_exists in EX as (k & IK & EK). apply Nat.eqb_eq in EK. subst k. unfold extracted_headers in IK. apply in_concat in IK as (l & IL & IK). apply in_map_iff in IL as ([k fs|n] & <- & IE); [|destruct IK]. destruct IK as [->|[]]. destruct (PV h fs IE) as (y & Y & V & _). congruence.
    - destruct (d_valid x) eqn:V; auto. destruct (nth_error (ds_h d) h) as [t|] eqn:T; [|apply nth_error_None in T; lia]. assert (IH : In h (eh ev)). { apply (P2 h t x T X); auto. destruct (hd_meta t) eqn:M; auto. destruct NM. exists t. auto. }
      rewrite <- EX. symmetry. apply existsb_exists. exists h. split; auto. apply Nat.eqb_refl. }
  rewrite (C32_deparse legacy d s' s' [] hs ps old payload W R' BO BPL eq_refl EM). rewrite (proj2 (Nat.leb_le _ _)); [rewrite <- EQ; auto|]. subst data. rewrite app_length in LO. lia.
Qed.
(** Hence, when nothing was changed in between, the length is the sum of the sizes. *)
Corollary C32_length : forall (legacy : bool) (d : desc) (s s1 : phv) (cks : list (checksum * list N)) (hs : list nat) (parts : list (list N)) (old payload out : list N) (s' : phv),
  wf d -> reach legacy d s1 -> bytes_ok old -> bytes_ok payload -> update_checksums d cks payload s = Some s1 -> emits d s1 hs parts ->
  deparse legacy d cks [] hs old payload s = Some (s', out) -> length out = fold_right Nat.add 0 (map (@length N) parts) + length payload.
Proof.
  intros legacy d s s1 cks hs ps old payload out s' W R BO BP U E D. rewrite (C32_deparse legacy d s s1 cks hs ps old payload W R BO BP U E) in D. destruct (_ <=? _); [|discriminate]. injection D as <- <-. rewrite app_length. f_equal. clear. induction ps; cbn; auto. rewrite app_length. auto.
Qed.

(** ** A concrete packet: two labels and the variable-length header of ParserProps *)
Definition dp_pg : program := mk_prog (Some 0)
  [mk_st [PExtract 0 None] (Some [KField 0 1]) [CExact [0%N; 1%N] (Some 1); CMask [0%N; 2%N] [0%N; 15%N] (Some 2)] None;
   mk_st [PExtractStack 0 None] (Some [KStack 0 1]) [CExact [0%N] (Some 1)] (Some 2);
   mk_st [PVerify (fun _ => true) (fun _ => 0%Z); PExtract 3 (Some ((fun _ => 24%Z), 8))] None [] None].
Lemma pe_nometa h : ~ meta pe_d h.
Proof. intros (t & A & B). do 4 (destruct h as [|h]; [cbn in A; injection A as <-; discriminate|]). destruct h; discriminate. Qed.
Lemma pe_nosib a b : ~ siblings pe_d a b.
Proof. intros (u & i & i' & (m & A & _) & _). destruct u; discriminate. Qed.
Lemma dp_prog : prog_ok pe_d dp_pg /\ forall p, In p (pg_states dp_pg) -> Forall (plain pe_d) (st_ops p).
Proof.
  split; [constructor; [cbn; lia| |]; intros p [<-|[<-|[<-|[]]]]; cbn; try (repeat constructor; cbn; lia)|].
  intros p [<-|[<-|[<-|[]]]]; cbn; repeat constructor; cbn; apply pe_nometa.
Qed.
Example C32_ex_roundtrip : exists s' payload ev e, parse false (fun _ => None) pe_d pe_env dp_pg 10 pe_pkt (create pe_d) = Done s' payload ev e /\ payload = [77%N] /\
  deparse false pe_d [] [] [0; 1; 2; 3] (repeat 170%N 12) payload s' = Some (s', pe_pkt).
Proof.
  assert (E : exists s', parse false (fun _ => None) pe_d pe_env dp_pg 10 pe_pkt (create pe_d) = Done s' [77%N] [EvHdr 0 [(4, 5%Z); (12, 1%Z)]; EvHdr 1 [(7, 10%Z); (1, 0%Z)]; EvHdr 2 [(7, 11%Z); (1, 1%Z)]; EvHdr 3 [(8, 9%Z); (24, 66051%Z)]] NoError) by (eexists; vm_compute; reflexivity).
  destruct E as (s' & E). exists s'. do 3 eexists. split; [exact E|]. split; [reflexivity|]. destruct dp_prog as [A B].
  eapply C32_parse_deparse; [apply pe_wf|apply pe_layout| |apply pe_reach| |apply A|apply B|exact E| | | |].
  - repeat constructor.
  - intros h t x T X M. do 4 (destruct h as [|h]; [cbn in X; injection X as <-; reflexivity|]). destruct h; discriminate.
  - split; [repeat constructor; cbn; intuition discriminate|]. intros; apply pe_nosib.
  - split; [|reflexivity]. intros h IN. split; [destruct IN as [<-|[<-|[<-|[<-|[]]]]]; cbn; lia|apply pe_nometa].
  - repeat constructor.
  - cbn. lia.
Qed.
(** A header added in the deparser's own methods overwrites the payload; one removed leaves bytes of the old packet. *)
Definition dp_state : phv := match run false pe_d (create pe_d) [OAdd 0; OSet 0 1 7%Z; OAdd 1] with Some s => s | None => create pe_d end.
Lemma dp_reach : reach false pe_d dp_state.
Proof. exists [OAdd 0; OSet 0 1 7%Z; OAdd 1]. split; [|vm_compute; reflexivity]. constructor; [cbn; lia|]. constructor; [eexists; split; [reflexivity|cbn; lia]|]. constructor; [cbn; lia|auto]. Qed.
Example C32_ex_methods :
  deparse false pe_d [] [fun _ => [ORemove 1]] [0; 1] [170; 170; 170; 170]%N [8; 9]%N dp_state = Some (match run false pe_d dp_state [ORemove 1] with Some s => s | None => dp_state end, [0; 7; 170; 8; 9]%N) /\
  deparse false pe_d [] [fun _ => [OAdd 2]] [0; 1; 2] [170; 170; 170; 170]%N [8; 9]%N dp_state = Some (match run false pe_d dp_state [OAdd 2] with Some s => s | None => dp_state end, [0; 7; 0; 0; 9]%N) /\
  deparse false pe_d [] [] [0; 1] [170; 170; 170; 170]%N [8; 9]%N dp_state = Some (dp_state, [0; 7; 0; 8; 9]%N) /\
  deparse false pe_d [] [] [1; 0; 2] [170; 170; 170; 170]%N [8; 9]%N dp_state = Some (dp_state, [0; 0; 7; 8; 9]%N) /\
  deparse false pe_d [] [] [0; 1] [170; 170]%N [8; 9]%N dp_state = None.
Proof. vm_compute. repeat split. Qed.
Theorem C32_methods_refuted : ~ (forall d s s2 ms hs parts2 old payload out, wf d -> reach false d s -> bytes_ok old -> bytes_ok payload -> (forall m s, In m ms -> Forall (op_ok d) (m s)) ->
  deparse false d [] ms hs old payload s = Some (s2, out) -> emits d s2 hs parts2 -> out = concat parts2 ++ payload).
Proof.
  intros C. set (s2 := match run false pe_d dp_state [ORemove 1] with Some s => s | None => dp_state end).
  assert (E : [0; 7; 170; 8; 9]%N = concat [[0; 7]%N] ++ [8; 9]%N); [|discriminate].
  refine (C pe_d dp_state s2 [fun _ => [ORemove 1]] [0; 1] [[0; 7]%N] [170; 170; 170; 170]%N [8; 9]%N _ pe_wf dp_reach _ _ _ (proj1 C32_ex_methods) _); [repeat constructor|repeat constructor| |].
  - intros m s [<-|[]]. repeat constructor; cbn; lia.
  - eapply em_live; [| |apply em_dead; [|constructor]].
    + eexists. split; [reflexivity|]. split; [vm_compute; reflexivity|]. right. reflexivity.
    + split; [repeat constructor|vm_compute; reflexivity].
    + eexists. eexists. split; [reflexivity|]. split; [vm_compute; reflexivity|]. split; reflexivity.
Qed.
Print Assumptions C32_encodings.
Print Assumptions C32_deparse.
Print Assumptions C32_methods.
Print Assumptions C32_reachable.
Print Assumptions C32_parse_deparse.
Print Assumptions C32_length.
Print Assumptions C32_methods_refuted.
