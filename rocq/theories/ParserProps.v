(** C29 parsing stays in the packet and accounts for every byte, C30 select and value sets, C31 termination. *)
From Coq Require Import List Arith NArith ZArith Bool Lia.
From Verif Require Import Base Bits Bytes EntryListSpec DataModel ExtractModel ExtractSpec ExtractProofs ExtractProps PhvModel PhvSpec PhvProofs PhvProofs2 PhvProofs3 PhvProofs4 PhvProofs5 PhvProofs6 PhvProofs7 PhvProps ParserModel ParserSpec ParserProofs ParserProofs2 ParserProofs3 ParserProofs4 ParserProofs5.
Import ListNotations.

(** ** C29 *)
(** Whatever the outcome of the parser, the packet is the concatenation of pieces, one for each thing consumed, in order,
    followed by the payload.  The piece of a header is the bits of the fields it was given. *)
Theorem C29_accounts : forall (legacy : bool) (lx : nat -> option (phv -> Z)) (d : desc) (env : nat -> list vset) (pg : program) (fuel : nat) (data : list N) (s s' : phv) (payload : list N) (ev : list event) (e : perr),
  wf d -> wf_layout d -> bytes_ok data -> reach legacy d s -> prog_ok d pg ->
  parse legacy lx d env pg fuel data s = Done s' payload ev e ->
  (exists pieces, data = concat pieces ++ payload /\ Forall2 accounts pieces ev) /\ reach legacy d s'.
Proof.
  intros legacy lx d env pg fuel data s s' payload ev e W WL BD R PO E. pose proof (reach_INV _ _ _ W R) as I. unfold parse in E. destruct (pg_init pg) as [i|].
  - split; [|eapply loop_reach; eauto]. destruct (loop_spec legacy lx d data W WL BD env pg PO fuel _ _ _ _ _ _ _ _ I (Nat.le_0_l _) (acct_none data 0) E) as (bp & L & -> & (ps & C & F) & _).
    exists ps. split; auto. rewrite C. unfold piece. rewrite Nat.sub_0_r. cbn [skipn]. symmetry. apply firstn_skipn.
  - injection E as <- <- <- <-. split; auto. exists []. split; auto.
Qed.
(** An extraction marks a header valid with the fields it reports, and consumes the bytes it reports; the effects on other
    headers are those of PHV operations (C26-C28). *)
Theorem C29_extraction : forall (legacy : bool) (lx : nat -> option (phv -> Z)) (d : desc) (data : list N) (s s' : phv) (bp bp' : nat) (h : nat) (vl : option ((phv -> Z) * nat)) (ev : list event),
  wf d -> wf_layout d -> bytes_ok data -> reach legacy d s -> bp <= length data -> exec_op legacy lx d data (PExtract h vl) s bp = Some (inr (s', bp', ev)) ->
  bp <= bp' <= length data /\ (exists x, header s' h = Some x /\ valid (header s' h) /\ ev = [EvHdr h (d_fields x)] /\ accounts (firstn (bp' - bp) (skipn bp data)) (EvHdr h (d_fields x))) /\
  p_s s' = p_s s /\ p_us s' = p_us s /\ forall k, k <> h -> ~ siblings d h k -> header s' k = header s k.
Proof.
  intros legacy lx d data s s' bp bp' h vl ev W WL BD R HB E. cbn [exec_op] in E. pose proof (reach_INV _ _ _ W R) as I. destruct (extract_one_spec lx d data W WL BD _ _ _ _ _ _ _ I HB E) as ([A B C (x & X & V & VF & EV & AC) O] & _).
  split; auto. split; [exists x; split; auto; split; auto; exists x; auto|]. pose proof B as (B1 & B2 & _). split; auto. split; auto. intros k N NS. unfold header. fold (H s' k). fold (H s k). destruct (H s k) as [y|] eqn:Y; [|eapply H_none_frame; eauto]. rewrite (O k y N Y), after_valid_other; auto.
Qed.
(** No operation of a guarded program reads outside of the packet, indexes a stack out of bounds or fails an assertion. *)
Theorem C29_never_out_of_bounds : forall (legacy : bool) (lx : nat -> option (phv -> Z)) (d : desc) (env : nat -> list vset) (pg : program) (fuel : nat) (data : list N) (s : phv),
  wf d -> wf_layout d -> bytes_ok data -> reach legacy d s -> prog_ok d pg -> (forall p, In p (pg_states pg) -> Forall (guarded d) (st_ops p) /\ select_ok d env p) ->
  parse legacy lx d env pg fuel data s <> Crash.
Proof.
  intros legacy lx d env pg fuel data s W WL BD R PO G. pose proof (reach_INV _ _ _ W R) as I. unfold parse. destruct (pg_init pg) as [i|] eqn:PI; [|discriminate].
  apply (loop_safe legacy lx d data W WL BD env pg PO G); auto; [lia|]. pose proof (po_init _ _ PO) as A. rewrite PI in A. exact A.
Qed.
(** The exact condition for PacketTooShort when a header of fixed size is extracted *)
Theorem C29_extract_too_short : forall (legacy : bool) (lx : nat -> option (phv -> Z)) (d : desc) (data : list N) (s : phv) (bp h : nat) (t : hdesc),
  wf d -> wf_layout d -> bytes_ok data -> reach legacy d s -> bp <= length data -> nth_error (ds_h d) h = Some t -> ~ In None (hd_fields t) ->
  let size := fixed_bits (hd_fields t) / 8 in let r := exec_op legacy lx d data (PExtract h None) s bp in
  (length data < bp + size -> r = Some (inl PacketTooShort)) /\
  (bp + size <= length data -> exists s' x, r = Some (inr (s', bp + size, [EvHdr h (d_fields x)])) /\ header s' h = Some x /\ d_valid x = true /\ accounts (firstn size (skipn bp data)) (EvHdr h (d_fields x))).
Proof.
  intros legacy lx d data s bp h t W WL BD R HB T NV size r. pose proof (wf_size _ W _ _ T) as M. pose proof (Nat.div_mod (fixed_bits (hd_fields t)) 8 ltac:(lia)) as DM. fold size in DM.
  destruct (extract_fixed_exact legacy lx d data W WL BD s h t bp R HB T NV) as [[A B]|[A B]]; split; intros C; auto; try lia. 
Qed.
(** With a length: the outcome when the header does not hold a variable-length field yet *)
Theorem C29_extract_with_length : forall (legacy : bool) (lx : nat -> option (phv -> Z)) (d : desc) (data : list N) (s : phv) (bp h : nat) (t : hdesc) (x : hdr) (len : phv -> Z) (maxb : nat),
  wf d -> wf_layout d -> bytes_ok data -> reach legacy d s -> bp <= length data -> nth_error (ds_h d) h = Some t -> In None (hd_fields t) -> header s h = Some x ->
  (8 * d_nb x = Z.of_nat (fixed_bits (hd_fields t)))%Z -> (0 <= len s)%Z ->
  let n := Z.to_nat (len s) in let total := fixed_bits (hd_fields t) + n in let r := exec_op legacy lx d data (PExtract h (Some (len, maxb))) s bp in
  (n mod 8 <> 0 -> r = Some (inl InvalidArgument)) /\
  (n mod 8 = 0 -> 8 * (length data - bp) < total -> r = Some (inl PacketTooShort)) /\
  (n mod 8 = 0 -> total <= 8 * (length data - bp) -> maxb <> 0 -> 8 * maxb < total -> r = Some (inl HeaderTooShort)) /\
  (n mod 8 = 0 -> total <= 8 * (length data - bp) -> maxb = 0 \/ total <= 8 * maxb -> exists s' y, r = Some (inr (s', bp + total / 8, [EvHdr h (d_fields y)])) /\
    header s' h = Some y /\ d_valid y = true /\ accounts (firstn (total / 8) (skipn bp data)) (EvHdr h (d_fields y))).
Proof. intros. apply (extract_VL_exact legacy lx d data) with (x := x); auto. Qed.
Theorem C29_skip_too_short : forall (legacy : bool) (lx : nat -> option (phv -> Z)) (d : desc) (data : list N) (s : phv) (bp n : nat), bp <= length data ->
  exec_op legacy lx d data (PShift n) s bp = (if length data <? bp + n then Some (inl PacketTooShort) else Some (inr (s, bp + n, [EvSkip n]))) /\
  forall g, g s = (8 * Z.of_nat n)%Z -> (g s < 2 ^ 64)%Z -> exec_op legacy lx d data (PAdvance g) s bp = (if length data <? bp + n then Some (inl PacketTooShort) else Some (inr (s, bp + n, [EvSkip n]))).
Proof.
  intros legacy lx d data s bp n HB. cbn [exec_op]. assert (SK : skip data s bp (Z.of_nat n) = (if length data <? bp + n then Some (inl PacketTooShort) else Some (inr (s, bp + n, [EvSkip n])))).
  { unfold skip. rewrite short_spec by (auto; lia). rewrite Nat2Z.id. destruct (Z.ltb_spec (Z.of_nat (length data - bp)) (Z.of_nat n)), (Nat.ltb_spec (length data) (bp + n)); auto; lia. }
  split; auto. intros g G L. rewrite (proj2 (Z.ltb_ge _ _)) by lia. cbv zeta. rewrite G in *. rewrite (Z.mod_small (8 * Z.of_nat n)) by lia. rewrite (Z.mul_comm 8), Z.mod_mul, Z.div_mul by lia. exact SK.
Qed.
(** A full stack is an error, and the packet is left where it was *)
Theorem C29_stack_full : forall (legacy : bool) (lx : nat -> option (phv -> Z)) (d : desc) (data : list N) (s : phv) (bp k : nat) (e : list nat) (vl : option ((phv -> Z) * nat)),
  nth_error (ds_s d) k = Some e -> nth_error (p_s s) k = Some (length e) -> exec_ops legacy lx d data [PExtractStack k vl] s bp = Some (s, bp, [], Some StackOutOfBounds).
Proof. intros legacy lx d data s bp k e vl K N. cbn [exec_ops exec_op]. rewrite K. cbn [bind]. rewrite N. cbn [bind]. rewrite Nat.leb_refl. auto. Qed.
(** An extraction into a stack fills the next element and makes it the last one. *)
Theorem C29_extract_next : forall (legacy : bool) (lx : nat -> option (phv -> Z)) (d : desc) (data : list N) (s s' : phv) (bp bp' k next h : nat) (e : list nat) (vl : option ((phv -> Z) * nat)) (ev : list event),
  wf d -> wf_layout d -> bytes_ok data -> reach legacy d s -> bp <= length data -> nth_error (ds_s d) k = Some e -> nth_error (p_s s) k = Some next -> nth_error e next = Some h ->
  exec_op legacy lx d data (PExtractStack k vl) s bp = Some (inr (s', bp', ev)) ->
  nth_error (p_s s') k = Some (S next) /\ exists x, header s' h = Some x /\ d_valid x = true /\ ev = [EvHdr h (d_fields x)] /\ accounts (firstn (bp' - bp) (skipn bp data)) (EvHdr h (d_fields x)).
Proof.
  intros legacy lx d data s s' bp bp' k next h e vl ev W WL BD R HB K N NE E. pose proof (reach_INV _ _ _ W R) as I. cbn [exec_op] in E. rewrite K in E. cbn [bind] in E. rewrite N in E. cbn [bind] in E. destruct (Nat.leb_spec (length e) next) as [A|A]; [discriminate|]. rewrite NE in E. cbn [bind] in E.
  destruct (extract_one lx d s h vl data bp) as [[err|[[s1 bp1] ev1]]|] eqn:X; cbn [bind] in E; try discriminate. destruct (extract_one_spec lx d data W WL BD _ _ _ _ _ _ _ I HB X) as ([I1 FR L1 (x & HX & V & VF & EV & AC) O] & _).
  destruct (push_back d s1 k) as [q|] eqn:Q; [|discriminate]. cbn [bind] in E. injection E as <- <- <-. pose proof FR as (F1 & _ & _). pose proof N as N1. rewrite <- F1 in N1. destruct (push_back_grows d W s1 k q I1 Q) as [_ G]. split; [apply (G e next); auto|].
  unfold push_back in Q. rewrite K in Q. cbn [bind] in Q. rewrite N1 in Q. cbn [bind] in Q. destruct (Nat.eqb_spec next (length e)); [lia|]. unfold at_el in Q. rewrite NE in Q. cbn [bind] in Q.
  destruct (mark_valid d s1 h) as [s2|] eqn:MV; [|discriminate]. cbn [bind] in Q. injection Q as <-. cbn [fst]. destruct (mark_valid_ok false d s1 h x W I1 HX) as (s3 & E3 & _ & _ & H3 & _). assert (s3 = s2) by congruence. subst s3.
  eexists. split; [exact H3|]. cbn [d_valid d_fields]. split; auto.
Qed.
(** A set stores the value in the field, truncated to its width; a lookahead set stores the bits looked at. *)
Theorem C29_set : forall (legacy : bool) (lx : nat -> option (phv -> Z)) (d : desc) (data : list N) (s : phv) (bp h f : nat) (x : hdr) (w : nat) (v : Z), header s h = Some x -> nth_error (d_fields x) f = Some (w, v) ->
  (forall g, exists s' x', exec_op legacy lx d data (PSet h f g) s bp = Some (inr (s', bp, [])) /\ header s' h = Some x' /\ nth_error (d_fields x') f = Some (w, g s mod 2 ^ Z.of_nat w)%Z /\ (forall f', f' <> f -> nth_error (d_fields x') f' = nth_error (d_fields x) f') /\ forall k, k <> h -> header s' k = header s k) /\
  (forall off n s' bp' ev, bytes_ok data -> 0 < n -> exec_op legacy lx d data (PSetLook h f off n) s bp = Some (inr (s', bp', ev)) -> bp' = bp /\ ev = [] /\ exists x' b, header s' h = Some x' /\ nth_error (d_fields x') f = Some (w, Z.of_N b mod 2 ^ Z.of_nat w)%Z /\ bitsN n b = firstn n (skipn off (bits_of_bytes (skipn bp data))) /\ (b < 2 ^ N.of_nat n)%N).
Proof.
  intros legacy lx d data s bp h f x w v X F. assert (ST : forall z, exists s' x', store s h f z = Some s' /\ header s' h = Some x' /\ nth_error (d_fields x') f = Some (w, z mod 2 ^ Z.of_nat w)%Z /\ (forall f', f' <> f -> nth_error (d_fields x') f' = nth_error (d_fields x) f') /\ forall k, k <> h -> header s' k = header s k).
  { intros z. unfold store, set_field, header in *. rewrite X. cbn [bind]. rewrite F. cbn [bind fst]. eexists. eexists. split; [reflexivity|]. cbn [set_h p_h]. rewrite nth_error_list_set_eq by (eapply nth_error_lt; eauto). split; [reflexivity|]. cbn [d_fields].
    rewrite nth_error_list_set_eq by (eapply nth_error_lt; eauto). split; [reflexivity|]. split; intros; apply nth_error_list_set_neq; auto. }
  split.
  - intros g. destruct (ST (g s)) as (s' & x' & E & A). exists s', x'. cbn [exec_op]. rewrite E. cbn [bind]. auto.
  - intros off n s' bp' ev BD NP E. cbn [exec_op] in E. destruct (short _ _ _); [discriminate|]. destruct (peek off n data bp) as [b|] eqn:PK; [|discriminate]. cbn [bind] in E.
    destruct (ST (import_bytes b)) as (s1 & x' & E1 & A1 & A2 & _). rewrite E1 in E. cbn [bind] in E. injection E as <- <- <-. split; auto. split; auto.
    destruct (key_entry_spec d s data bp (KLook off n) b BD PK) as (bits & (FIT & EB) & HB); [intros o w' [= <- <-]; auto|]. exists x', (be_val b). split; auto.
    assert (LB : length bits = n) by (rewrite EB, firstn_length, skipn_length, bits_of_bytes_length, skipn_length; lia).
    split; [exact A2|]. pose proof (holds_bits _ _ HB) as HBits. rewrite LB in HBits. split; [congruence|].
    destruct HB as (BO & _ & BE). rewrite (be_val_bits b BO), BE, of_bits_app. replace (of_bits (repeat false (8 * ((length bits + 7) / 8) - length bits))) with 0%N; [rewrite N.mul_0_l, N.add_0_l, <- LB; apply of_bits_lt|].
    symmetry. generalize (8 * ((length bits + 7) / 8) - length bits). clear. intros m. induction m as [|m IH]; cbn [repeat]; [reflexivity|]. rewrite of_bits_cons, IH. cbn. lia.
Qed.

(** A concrete program.  Headers: 0 two bytes; 1, 2 a stack of two labels of one byte with a bottom-of-stack bit; 3 a byte and a
    variable-length field. *)
Definition pe_d : desc := mk_desc [mk_hdesc false 0 [Some 4; Some 12]; mk_hdesc false 1 [Some 7; Some 1]; mk_hdesc false 1 [Some 7; Some 1]; mk_hdesc false 2 [Some 8; None]] [] [[1; 2]] [].
Lemma pe_wf : wf pe_d.
Proof.
  assert (NM : forall u i h, ~ member pe_d u i h) by (intros u i h (m & A & _); destruct u; discriminate).
  assert (NT : forall h, ~ meta pe_d h) by (intros h (t & A & B); do 4 (destruct h as [|h]; [cbn in A; injection A as <-; discriminate|]); destruct h; discriminate).
  constructor.
  - intros h h' t t' A B. do 4 (destruct h as [|h]; [cbn in A; injection A as <-; do 4 (destruct h' as [|h']; [cbn in B; injection B as <-; cbn; auto; discriminate|]); destruct h'; discriminate|]). destruct h; discriminate.
  - intros h t A. do 4 (destruct h as [|h]; [cbn in A; injection A as <-; reflexivity|]). destruct h; discriminate.
  - intros u i u' i' h A. destruct (NM _ _ _ A).
  - intros u i h A. destruct (NM _ _ _ A).
  - intros k e A. destruct k as [|k]; [|destruct k; discriminate]. injection A as <-. repeat constructor; cbn; intuition discriminate.
  - intros k e h h' A B C. destruct k as [|k]; [|destruct k; discriminate]. injection A as <-. split; [|split; [intros (u & i & M); destruct (NM _ _ _ M)|auto]].
    destruct B as [<-|[<-|[]]], C as [<-|[<-|[]]]; eexists; eexists; (split; [reflexivity|split; reflexivity]).
  - intros k e A. destruct k; discriminate.
  - intros k e u u' A. destruct k; discriminate.
Qed.
Lemma pe_layout : wf_layout pe_d.
Proof. constructor; intros h t A; do 4 (destruct h as [|h]; [cbn in A; injection A as <-; cbn; repeat split; lia|]); destruct h; discriminate. Qed.
Lemma pe_reach legacy : reach legacy pe_d (create pe_d).
Proof. exists []. split; auto. Qed.
Definition pe_len (s : phv) : Z := match header s 3 with Some x => match nth_error (d_fields x) 0 with Some (_, v) => (8 * Z.abs v)%Z | None => 0%Z end | None => 0%Z end.
(** State 0 extracts header 0 and selects on its second field: 0x001 labels, 0x002 under mask 0x00f state 2; state 1 extracts
    labels until the bottom-of-stack bit; state 2 extracts header 3 with three bytes of variable length, if the packet
    has at least the one byte looked at. *)
Definition pe_pg : program := mk_prog (Some 0)
  [mk_st [PExtract 0 None] (Some [KField 0 1]) [CExact [0%N; 1%N] (Some 1); CMask [0%N; 2%N] [0%N; 15%N] (Some 2)] None;
   mk_st [PExtractStack 0 None] (Some [KStack 0 1]) [CExact [0%N] (Some 1)] (Some 2);
   mk_st [PSetLook 0 0 4 4; PExtract 3 (Some ((fun _ => 24%Z), 8))] None [] None].
Lemma pe_prog : prog_ok pe_d pe_pg.
Proof.
  constructor; [cbn; lia| |]; intros p [<-|[<-|[<-|[]]]]; cbn; try (repeat constructor; cbn; lia).
  constructor; [|constructor; [cbn; lia|auto]]. exists (mk_hdesc false 0 [Some 4; Some 12]). split; [reflexivity|cbn; lia].
Qed.
Lemma pe_guarded env : forall p, In p (pg_states pe_pg) -> Forall (guarded pe_d) (st_ops p) /\ select_ok pe_d env p.
Proof.
  intros p [<-|[<-|[<-|[]]]]; (split; [cbn [st_ops]|]).
  - constructor; [|auto]. split; [|split; [discriminate|exact I]]. intros _ h -> (t & T & IN). cbn in T. injection T as <-. cbn in IN. intuition discriminate.
  - intros ks [= <-]. exists [12]. split; [constructor; [|auto]; eexists; split; reflexivity|]. intros n. repeat constructor.
  - constructor; [|auto]. split; [|split; [discriminate|exact I]]. intros _ h (e & K & IN) (t & T & VL). cbn in K. injection K as <-. destruct IN as [<-|[<-|[]]]; cbn in T; injection T as <-; cbn in VL; intuition discriminate.
  - intros ks [= <-]. exists [1]. split; [constructor; [|auto]|intros n; repeat constructor]. split.
    + exists [1; 2]. split; [reflexivity|]. intros h [<-|[<-|[]]]; eexists; split; reflexivity.
    + exists [], (PExtractStack 0 None), []. split; [reflexivity|]. split; [eauto|]. intros o' [].
  - constructor; [|constructor; [|auto]]; (split; [|split]); cbn; auto; try discriminate; try (intros _ h []).
    + lia.
    + intros len maxb [= <- <-] s. lia.
  - intros ks [=].
Qed.
(** Two labels, then the variable-length header, then a payload of one byte *)
Definition pe_pkt : list N := [80; 1; 20; 23; 9; 1; 2; 3; 77]%N.
Definition pe_env (n : nat) : list vset := [].
Example C29_ex_parse : exists s', parse false (fun _ => None) pe_d pe_env pe_pg 10 pe_pkt (create pe_d) =
  Done s' [77%N] [EvHdr 0 [(4, 5%Z); (12, 1%Z)]; EvHdr 1 [(7, 10%Z); (1, 0%Z)]; EvHdr 2 [(7, 11%Z); (1, 1%Z)]; EvHdr 3 [(8, 9%Z); (24, 66051%Z)]] NoError.
Proof. eexists. vm_compute. reflexivity. Qed.
Example C29_ex_short : exists s', parse false (fun _ => None) pe_d pe_env pe_pg 10 (firstn 6 pe_pkt) (create pe_d) =
  Done s' [9; 1]%N [EvHdr 0 [(4, 5%Z); (12, 1%Z)]; EvHdr 1 [(7, 10%Z); (1, 0%Z)]; EvHdr 2 [(7, 11%Z); (1, 1%Z)]] PacketTooShort.
Proof. eexists. vm_compute. reflexivity. Qed.
Example C29_ex_overflow : exists s', parse false (fun _ => None) pe_d pe_env pe_pg 10 [80; 1; 20; 22; 24; 1]%N (create pe_d) =
  Done s' [24; 1]%N [EvHdr 0 [(4, 5%Z); (12, 1%Z)]; EvHdr 1 [(7, 10%Z); (1, 0%Z)]; EvHdr 2 [(7, 11%Z); (1, 0%Z)]] StackOutOfBounds.
Proof. eexists. vm_compute. reflexivity. Qed.
Example C29_ex_applies : exists s' payload ev e, parse false (fun _ => None) pe_d pe_env pe_pg 10 pe_pkt (create pe_d) = Done s' payload ev e /\ (exists pieces, pe_pkt = concat pieces ++ payload /\ Forall2 accounts pieces ev) /\ length ev = 4.
Proof.
  destruct C29_ex_parse as (s' & E). exists s'. eexists. eexists. eexists. split; [exact E|]. split; [|reflexivity]. eapply C29_accounts in E; [apply E|apply pe_wf|apply pe_layout| |apply pe_reach|apply pe_prog].
  repeat constructor.
Qed.
Example C29_ex_safe : forall data fuel, bytes_ok data -> parse true (fun _ => None) pe_d pe_env pe_pg fuel data (create pe_d) <> Crash.
Proof. intros data fuel B. apply C29_never_out_of_bounds; auto; [apply pe_wf|apply pe_layout|apply pe_reach|apply pe_prog|apply pe_guarded]. Qed.

(** Findings: without the guards there are reads out of the packet. *)
(** A lookahead assignment checks for the width of the lookahead but not for its offset. *)
Theorem C29_lookahead_offset_refuted :
  ~ (forall d data s h f off w bp, wf d -> wf_layout d -> bytes_ok data -> reach false d s -> bp <= length data -> field_exists d h f -> 0 < w -> exec_op false (fun _ => None) d data (PSetLook h f off w) s bp <> None).
Proof.
  intros C. refine (C pe_d [1; 2]%N (create pe_d) 0 0 16 8 0 pe_wf pe_layout _ (pe_reach false) _ _ _ _); [repeat constructor|cbn; lia| |lia|vm_compute; reflexivity].
  exists (mk_hdesc false 0 [Some 4; Some 12]). split; [reflexivity|cbn; lia].
Qed.
(** A lookahead in a select expression is not checked at all. *)
Theorem C29_select_lookahead_refuted :
  ~ (forall d data s off w bp, wf d -> bytes_ok data -> reach false d s -> bp <= length data -> 0 < w -> build_key d s data bp [KLook off w] <> None).
Proof. intros C. refine (C pe_d [1]%N (create pe_d) 0 16 0 pe_wf _ (pe_reach false) _ _ _); [repeat constructor|cbn; lia|lia|vm_compute; reflexivity]. Qed.
(** A select on the last element of an empty stack reads the element before the first one. *)
Theorem C29_select_empty_stack_refuted :
  ~ (forall d data s k f w bp, wf d -> bytes_ok data -> reach false d s -> bp <= length data -> (exists e, nth_error (ds_s d) k = Some e /\ e <> [] /\ forall h, In h e -> fixed_field d h f w) -> build_key d s data bp [KStack k f] <> None).
Proof.
  intros C. refine (C pe_d [1]%N (create pe_d) 0 1 1 0 pe_wf _ (pe_reach false) _ _ _); [repeat constructor|cbn; lia| |vm_compute; reflexivity].
  exists [1; 2]. split; [reflexivity|]. split; [discriminate|]. intros h [<-|[<-|[]]]; eexists; split; reflexivity.
Qed.
(** With the length expression attached to the header type (P4_14) only the fixed-width part is checked. *)
Theorem C29_legacy_varbit_refuted :
  ~ (forall lx d data s h bp, wf d -> wf_layout d -> bytes_ok data -> reach true d s -> bp <= length data -> h < length (ds_h d) -> (forall f s, lx h = Some f -> (0 <= f s)%Z) -> lx h <> None -> exec_op true lx d data (PExtract h None) s bp <> None).
Proof.
  intros C. refine (C (fun _ => Some pe_len) pe_d [2; 1]%N (create pe_d) 3 0 pe_wf pe_layout _ (pe_reach true) _ _ _ _ _); [repeat constructor|cbn; lia|cbn; lia| |discriminate|vm_compute; reflexivity].
  intros f s [= <-]. unfold pe_len. destruct (header s 3) as [x|]; [|lia]. destruct (nth_error (d_fields x) 0) as [[? v]|]; lia.
Qed.
(** A negative length passes the checks. *)
Theorem C29_negative_length_refuted :
  ~ (forall d data s h len maxb bp, wf d -> wf_layout d -> bytes_ok data -> reach false d s -> bp <= length data -> h < length (ds_h d) -> exec_op false (fun _ => None) d data (PExtract h (Some (len, maxb))) s bp <> None).
Proof. intros C. refine (C pe_d [2; 1]%N (create pe_d) 3 (fun _ => (-8)%Z) 8 0 pe_wf pe_layout _ (pe_reach false) _ _ _); [repeat constructor|cbn; lia|cbn; lia|vm_compute; reflexivity]. Qed.
(** Extracting again a header whose variable-length field is not empty asks for the bytes of the old field too: a
    packet with enough bytes is refused. *)
Theorem C29_extract_again_refuted :
  ~ (forall d data s h t n bp, wf d -> wf_layout d -> bytes_ok data -> reach false d s -> bp <= length data -> nth_error (ds_h d) h = Some t -> In None (hd_fields t) ->
     exec_op false (fun _ => None) d data (PExtract h (Some ((fun _ => Z.of_nat n), 0))) s bp = Some (inl PacketTooShort) -> 8 * (length data - bp) < fixed_bits (hd_fields t) + n).
Proof.
  intros C. assert (R : exists s, run false pe_d (create pe_d) [OExtract 3 16 [1%Z; 2%Z]] = Some s /\ exec_op false (fun _ => None) pe_d [1; 2]%N (PExtract 3 (Some ((fun _ => Z.of_nat 8), 0))) s 0 = Some (inl PacketTooShort)) by (eexists; split; vm_compute; reflexivity).
  destruct R as (s & R & E). assert (RE : reach false pe_d s). { exists [OExtract 3 16 [1%Z; 2%Z]]. split; auto. constructor; auto. eexists. split; [reflexivity|]. split; reflexivity. }
  epose proof (C pe_d [1; 2]%N s 3 _ 8 0 pe_wf pe_layout _ RE _ eq_refl _ E) as B. cbn in B. lia.
  Unshelve. all: cbn; auto; try lia. repeat constructor.
Qed.

(** ** C30 *)
(** A select key is the concatenation of its parts, each on whole bytes. *)
Theorem C30_key : forall (d : desc) (s : phv) (data : list N) (bp : nat) (ks : list kentry) (key : list N), bytes_ok data -> (forall off w, In (KLook off w) ks -> 0 < w) ->
  build_key d s data bp ks = Some key -> exists parts bs, Forall2 (entry_bits d s data bp) ks parts /\ Forall2 holds parts bs /\ key = concat bs.
Proof. intros d s data bp ks key BD P E. destruct (build_key_spec d s data bp ks key BD P E) as (ps & bs & A & B & C). exists ps, bs. auto. Qed.
(** The first case that matches decides; the default state is used when none does. *)
Theorem C30_select_first_match : forall (env : list vset) (cs : list case) (dflt : option nat) (key : list N), bytes_ok key ->
  Forall (fun c => forall k m nx, c = CMask k m nx -> bytes_ok k) cs -> Forall (case_sized env (length key)) cs ->
  (exists i c, nth_error cs i = Some c /\ case_matches env c key /\ select env cs dflt key = Some (case_next c) /\ forall j c', j < i -> nth_error cs j = Some c' -> ~ case_matches env c' key) \/
  (select env cs dflt key = Some dflt /\ forall c, In c cs -> ~ case_matches env c key).
Proof. intros env cs dflt key BK BC CS. eapply select_spec; eauto. Qed.
(** Value sets: a case matches a key exactly if some added and not removed value gives the same key, up to the mask. *)
Theorem C30_value_set : forall (vs vs' : vset) (l : list vop) (j : nat) (ws : list nat) (mask : option (list N)) (key : list N) (fs : list (list bool)),
  Forall (fun w => 0 < w) ws -> nth_error vs j = Some (new_shadow ws mask) -> (forall m, mask = Some m -> length m = key_bytes ws) -> Forall (op_sized ws) l -> vs_run vs l = Some vs' ->
  map (@length bool) fs = ws -> (exists bs, Forall2 holds fs bs /\ key = concat bs) ->
  exists sh' b, nth_error vs' j = Some sh' /\ sh_contains sh' key = Some b /\
    (b = true <-> present (fun v => exists fs' key', map (@length bool) fs' = ws /\ same_key fs' v key' /\ agrees mask key' key) l).
Proof. intros. eapply vset_spec; eauto. Qed.
(** Without a mask: exactly if the value made of the bits of the key was added and not removed since. *)
Theorem C30_value_set_exact : forall (vs vs' : vset) (l : list vop) (j : nat) (ws : list nat) (key v : list N) (fs : list (list bool)),
  Forall (fun w => 0 < w) ws -> nth_error vs j = Some (new_shadow ws None) -> Forall (op_sized ws) l -> vs_run vs l = Some vs' ->
  map (@length bool) fs = ws -> same_key fs v key ->
  exists sh' b, nth_error vs' j = Some sh' /\ sh_contains sh' key = Some b /\ (b = true <-> present (eq v) l).
Proof.
  intros vs vs' l j ws key v fs P J OS R L (HV & bs & HB & ->). destruct (C30_value_set vs vs' l j ws None (concat bs) fs P J ltac:(discriminate) OS R L (ex_intro _ bs (conj HB eq_refl))) as (sh' & b & A & B & C).
  exists sh', b. split; auto. split; auto. rewrite C. apply present_ext. intros v' _. split.
  - intros (f2 & k2 & L2 & (H2 & b2 & HB2 & ->) & AG). cbn in AG. assert (b2 = bs) by (eapply holds_len_eq; eauto; congruence). subst b2. assert (f2 = fs) by (eapply holds_all_inj; eauto; congruence). subst. eapply holds_inj; eauto.
  - intros <-. exists fs, (concat bs). split; auto. split; [split; auto; exists bs; auto|reflexivity].
Qed.
(** What the control plane reads back: the values added and not removed since. *)
Theorem C30_value_set_readback : forall (vs vs' : vset) (l : list vop) (n j : nat), nth_error vs j = Some (new_base n) -> vs_run vs l = Some vs' ->
  exists sh', nth_error vs' j = Some sh' /\ forall v, In v (sh_set sh') <-> present (eq v) l.
Proof.
  intros vs vs' l n j J R. destruct (vs_run_nth _ _ _ _ _ R J) as (sh' & SR & J'). exists sh'. split; auto. intros v. rewrite (sh_set_spec (new_base n) l sh' eq_refl SR v).
  assert (SZ : forall v, In (VAdd v) l \/ In (VRemove v) l -> prepared (new_base n) v = Some v).
  { clear - SR. set (sh0 := new_base n) in *. assert (G : forall sh, sh_pad sh = None -> sh_mask sh = None -> forall l sh', sh_run sh l = Some sh' -> forall v, In (VAdd v) l \/ In (VRemove v) l -> prepared sh v = Some v).
    { intros sh P M l0 sh1 R. revert sh P M R. induction l0 as [|o l0 IH]; intros sh P M R v IN; [destruct IN as [[]|[]]|]. cbn [sh_run] in R. destruct (sh_step sh o) as [sh2|] eqn:ST; [|discriminate]. cbn [bind] in R.
      destruct (sh_step_same _ _ _ ST) as (A & B & C). assert (PV : forall v, (exists q, prepared sh v = Some q) -> prepared sh v = Some v).
      { intros v0 (q & Q). unfold prepared, do_padding, transform in *. rewrite P, M in *. cbn [bind] in *. destruct (length v0 =? sh_width sh); [auto|discriminate]. }
      assert (REST : In (VAdd v) l0 \/ In (VRemove v) l0 -> prepared sh v = Some v) by (intros IN'; rewrite <- (prepared_same sh sh2 v); auto; eapply IH; eauto; congruence).
      assert (IN2 : (o = VAdd v \/ o = VRemove v) \/ (In (VAdd v) l0 \/ In (VRemove v) l0)) by (destruct IN as [[->|IN]|[->|IN]]; auto).
      destruct IN2 as [[->| ->]|IN2]; auto; apply PV; cbn [sh_step] in ST; unfold sh_add, sh_remove in ST; destruct (prepared sh v); try discriminate; eauto. }
    intros v IN. apply (G sh0 eq_refl eq_refl l sh' SR v IN). }
  apply present_ext. intros v' IN. rewrite (SZ v' IN). split; congruence.
Qed.
(** Updates with values of the width of the key never fail. *)
Theorem C30_value_set_updates_succeed : forall (ws : list nat) (l : list vop) (vs : vset), Forall (fun w => 0 < w) ws -> Forall (op_sized ws) l ->
  Forall (fun sh => sh = new_base (fold_right Nat.add 0 ws) \/ exists mask, sh = new_shadow ws mask /\ forall m, mask = Some m -> length m = key_bytes ws) vs -> exists vs', vs_run vs l = Some vs'.
Proof.
  intros ws l vs P OS V. set (ok := fun sh => exists l0, sh = with_set (new_base (fold_right Nat.add 0 ws)) l0 \/ exists mask, sh = with_set (new_shadow ws mask) l0 /\ forall m, mask = Some m -> length m = key_bytes ws).
  assert (V' : Forall ok vs). { revert V. apply Forall_impl. intros sh [->|(mask & -> & M)]; exists []; [left; reflexivity|right; exists mask; auto]. } clear V.
  assert (PR : forall sh v, ok sh -> op_sized ws (VAdd v) -> exists q, prepared sh v = Some q).
  { intros sh v (l0 & [->|(mask & -> & M)]) (fs & L & HV).
    - rewrite (prepared_same (new_base (fold_right Nat.add 0 ws))) by reflexivity. unfold prepared, do_padding, transform. cbn [new_base sh_pad sh_mask bind sh_width]. destruct HV as (_ & LV & _). rewrite LV, <- total_len, L. unfold total. rewrite Nat.eqb_refl. eauto.
    - rewrite (prepared_same (new_shadow ws mask)) by reflexivity. unfold prepared. destruct (padded ws mask fs v P L HV) as (bs & -> & HB). cbn [bind]. destruct (holds_concat fs bs HB) as [_ LK]. rewrite L in LK.
      destruct (transform_ok ws mask (concat bs) LK M) as (q & -> & LQ). cbn [bind]. cbn [new_shadow sh_width]. fold (key_bytes ws). rewrite LQ, Nat.eqb_refl. eauto. }
  assert (WS : forall sh l0, ok sh -> ok (with_set sh l0)) by (intros sh l0 (l1 & [->|(mask & -> & M)]); exists l0; [left; reflexivity|right; exists mask; auto]).
  assert (MO : forall (f : shadow -> option shadow), (forall sh, ok sh -> exists sh', f sh = Some sh' /\ ok sh') -> forall vs, Forall ok vs -> exists vs', map_opt f vs = Some vs' /\ Forall ok vs').
  { intros f F vs0 G. induction G as [|sh vs0 O G IH]; cbn [map_opt]; [eauto|]. destruct (F sh O) as (sh' & -> & O'). cbn [bind]. destruct IH as (vs1 & -> & G'). cbn [bind]. eexists. split; [reflexivity|]. constructor; auto. }
  revert vs V'. induction OS as [|o l SZ OS IH]; intros vs V; cbn [vs_run]; [eauto|].
  assert (exists vs1, vs_step vs o = Some vs1 /\ Forall ok vs1) as (vs1 & -> & V1); [|cbn [bind]; auto]. destruct o as [v|v|]; cbn [vs_step].
  - apply MO; auto. intros sh O. unfold sh_add. destruct (PR sh v O SZ) as (q & ->). cbn [bind]. eauto.
  - apply MO; auto. intros sh O. unfold sh_remove. destruct (PR sh v O SZ) as (q & ->). cbn [bind]. eauto.
  - eexists. split; [reflexivity|]. apply Forall_forall. intros sh IN. apply in_map_iff in IN as (sh0 & <- & IN0). rewrite Forall_forall in V. apply WS, V; auto.
Qed.
(** Finding: with a mask, removing one of two values that are equal under the mask removes the match for both, although one of
    them is still in the set. *)
Theorem C30_masked_removal_refuted :
  ~ (forall vs vs' l j ws m key fs v, Forall (fun w => 0 < w) ws -> nth_error vs j = Some (new_shadow ws (Some m)) -> length m = key_bytes ws -> Forall (op_sized ws) l -> vs_run vs l = Some vs' ->
     map (@length bool) fs = ws -> same_key fs v key -> present (eq v) l -> exists sh', nth_error vs' j = Some sh' /\ sh_contains sh' key = Some true).
Proof.
  intros C. set (l := [VAdd [17%N]; VAdd [33%N]; VRemove [33%N]]).
  assert (SZ : forall v, (v < 256)%N -> holds (concat [bitsN 8 v]) [v]).
  { intros v L. cbn [concat]. rewrite app_nil_r. pose proof (bitsN_length 8 v) as BL. split; [repeat constructor; lia|]. rewrite BL. split; [reflexivity|]. cbn [repeat Nat.sub Nat.mul Nat.add]. cbn. reflexivity. }
  assert (OS : forall v, (v < 256)%N -> op_sized [8] (VAdd [v])) by (intros v L; exists [bitsN 8 v]; split; [reflexivity|apply SZ; auto]).
  destruct (C [new_shadow [8] (Some [15%N])] [new_shadow [8] (Some [15%N])] l 0 [8] [15%N] [17%N] [bitsN 8 17] [17%N] ltac:(repeat constructor; lia) eq_refl eq_refl) as (sh' & J & S1).
  - unfold l. repeat constructor; [apply (OS 17%N); lia|apply (OS 33%N); lia|apply (OS 33%N); lia].
  - reflexivity.
  - reflexivity.
  - split; [apply SZ; lia|]. exists [[17%N]]. split; [|reflexivity]. constructor; [|auto]. generalize (SZ 17%N eq_refl). cbn [concat]. rewrite app_nil_r. auto.
  - exists [], [17%N], [VAdd [33%N]; VRemove [33%N]]. split; [reflexivity|]. split; [reflexivity|]. intros o [<-|[<-|[]]]; (split; [discriminate|]); intros v' E; try discriminate. injection E as <-. discriminate.
  - cbn in J. injection J as <-. vm_compute in S1. discriminate.
Qed.
(** Two key fields of 4 and 12 bits: values have two bytes, keys three *)
Example C30_ex_set : exists vs', vs_run [new_base 16; new_shadow [4; 12] None] [VAdd [18; 52]%N; VAdd [86; 120]%N; VRemove [18; 52]%N] = Some vs' /\
  (exists sh, nth_error vs' 1 = Some sh /\ sh_contains sh [5; 6; 120]%N = Some true /\ sh_contains sh [1; 2; 52]%N = Some false /\ sh_contains sh [0; 6; 120]%N = Some false).
Proof. eexists. split; [vm_compute; reflexivity|]. eexists. split; [reflexivity|]. vm_compute. auto. Qed.
Example C30_ex_first : select [] [CMask [1]%N [1]%N (Some 4); CExact [3]%N (Some 5)] None [3]%N = Some (Some 4) /\ select [] [CMask [1]%N [1]%N (Some 4); CExact [2]%N (Some 5)] None [2]%N = Some (Some 5) /\ select [] [CMask [1]%N [1]%N (Some 4); CExact [2]%N (Some 5)] None [6]%N = Some None.
Proof. vm_compute. auto. Qed.
Example C30_ex_sized : same_key [[false; true; true; false]; bitsN 12 120] [96; 120]%N [6; 0; 120]%N.
Proof.
  split; [|exists [[6]; [0; 120]]%N; split; [|reflexivity]; repeat constructor]; try (vm_compute; reflexivity).
  split; [repeat constructor|split; vm_compute; reflexivity].
Qed.

(** ** C31 *)
(** A parser each of whose cycles consumes at least one byte stops, whatever the packet and the contents of the value sets, after
    at most (bytes of the packet + 1) * (number of states + 1) states. *)
Theorem C31_terminates : forall (legacy : bool) (lx : nat -> option (phv -> Z)) (d : desc) (env : nat -> list vset) (pg : program) (fuel : nat) (data : list N) (s : phv),
  wf d -> wf_layout d -> bytes_ok data -> reach legacy d s -> prog_ok d pg -> cycles_consume d pg -> (length data + 1) * (length (pg_states pg) + 1) <= fuel ->
  parse legacy lx d env pg fuel data s <> OutOfFuel.
Proof.
  intros legacy lx d env pg fuel data s W WL BD R PO (busy & B1 & B2) F. pose proof (reach_INV _ _ _ W R) as I. unfold parse. destruct (pg_init pg) as [i|] eqn:PI; [|discriminate].
  pose proof (po_init _ _ PO) as A. rewrite PI in A. cbn in A.
  eapply (loop_terminates legacy lx d data W WL BD env pg PO busy B1 B2 fuel i s 0 [] []); auto; [lia|constructor|intros x []|]. cbn [length]. rewrite !Nat.sub_0_r. rewrite Nat.mul_add_distr_r in F. lia.
Qed.
Lemma pe_edges i j : edge pe_pg i j -> i < j \/ i = 1 /\ j = 1.
Proof.
  intros (p & P & E). destruct i as [|[|[|i]]]; cbn in P; [| | |destruct i; discriminate]; injection P as <-; cbn in E; destruct E as [E|(c & C & E)]; try discriminate; try (injection E as <-; lia); intuition (subst; cbn in E; injection E as <-; lia).
Qed.
Example C31_ex_cycles : cycles_consume pe_d pe_pg.
Proof.
  exists (fun i => i =? 1). split.
  - intros i E. apply Nat.eqb_eq in E. subst. eexists. exists (PExtractStack 0 None). split; [reflexivity|]. split; [left; reflexivity|]. left. split; [exact I|]. intros h t (e & K & IN) T. cbn in K. injection K as <-. destruct IN as [<-|[<-|[]]]; cbn in T; injection T as <-; cbn; lia.
  - assert (G : forall i j, idle_walk (fun i => i =? 1) pe_pg i j -> i < j).
    { intros i j w. induction w as [i j B E|i k j B E w IH]; apply Nat.eqb_neq in B; apply pe_edges in E; lia. }
    intros i w. apply G in w. lia.
Qed.
Example C31_ex : forall data s, bytes_ok data -> reach false pe_d s -> parse false (fun _ => None) pe_d pe_env pe_pg ((length data + 1) * 4) data s <> OutOfFuel.
Proof. intros data s B R. apply C31_terminates; auto; [apply pe_wf|apply pe_layout|apply pe_prog|apply C31_ex_cycles]. Qed.
(** Without the condition the parser may run for ever. *)
Theorem C31_idle_cycle_refuted : ~ (forall d env pg data s, wf d -> wf_layout d -> bytes_ok data -> reach false d s -> prog_ok d pg -> exists fuel, parse false (fun _ => None) d env pg fuel data s <> OutOfFuel).
Proof.
  intros C. set (pg := mk_prog (Some 0) [mk_st [] None [] (Some 0)]). assert (PO : prog_ok pe_d pg) by (constructor; [cbn; lia| |]; intros p [<-|[]]; cbn; auto).
  destruct (C pe_d pe_env pg [] (create pe_d) pe_wf pe_layout ltac:(constructor) (pe_reach false) PO) as (fuel & N). apply N. unfold parse. cbn [pg_init pg].
  assert (G : forall fuel ev, parse_loop false (fun _ => None) pe_d pe_env (pg_states pg) [] fuel (Some 0) (create pe_d) 0 ev = OutOfFuel) by (induction fuel0 as [|n IH]; intros ev; cbn [parse_loop]; [reflexivity|]; cbn [nth_error pg pg_states exec_ops st_ops next_state st_key st_default]; apply IH).
  apply G.
Qed.

Print Assumptions C29_accounts.
Print Assumptions C29_extraction.
Print Assumptions C29_never_out_of_bounds.
Print Assumptions C29_extract_too_short.
Print Assumptions C29_extract_with_length.
Print Assumptions C29_skip_too_short.
Print Assumptions C29_stack_full.
Print Assumptions C29_extract_next.
Print Assumptions C29_set.
Print Assumptions C30_key.
Print Assumptions C30_select_first_match.
Print Assumptions C30_value_set.
Print Assumptions C30_value_set_exact.
Print Assumptions C30_value_set_readback.
Print Assumptions C30_value_set_updates_succeed.
Print Assumptions C30_masked_removal_refuted.
Print Assumptions C31_terminates.
Print Assumptions C31_idle_cycle_refuted.
