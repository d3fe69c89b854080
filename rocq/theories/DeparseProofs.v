(** Proofs about the deparser model. *)
From Coq Require Import List Arith NArith ZArith Bool Lia.
From Verif Require Import Base Bits Bytes EntryListSpec DataModel ExtractModel ExtractSpec ExtractProofs ExtractProps PhvModel PhvSpec PhvProofs PhvProofs2 PhvProofs3 PhvProofs4 PhvProofs5 PhvProofs6 PhvProps ParserModel ParserSpec ParserProofs ParserProofs2 ParserProofs4 ParserProofs5 BufModel BufSpec BufProofs CksumModel CksumSpec DeparseModel DeparseSpec.
Import ListNotations.

Lemma live_valid d s h x : live d s h x -> exists t, nth_error (ds_h d) h = Some t /\ nth_error (p_h s) h = Some x /\ is_valid t x = true.
Proof. intros (t & T & X & V). exists t. split; auto. split; auto. unfold is_valid. destruct V as [-> | ->]; auto using orb_true_r. Qed.
Lemma dead_invalid d s h : dead d s h -> exists t x, nth_error (ds_h d) h = Some t /\ nth_error (p_h s) h = Some x /\ is_valid t x = false.
Proof. intros (t & x & T & X & M & V). exists t, x. split; auto. split; auto. unfold is_valid. rewrite M, V. auto. Qed.
Lemma encodes_len d s h t x r : INV false d s -> nth_error (ds_h d) h = Some t -> nth_error (p_h s) h = Some x -> encodes x r -> length r = Z.to_nat (d_nb x) /\ sum_bits (d_fields x) = 8 * length r.
Proof.
  intros I T X (BR & ER). pose proof (i_f _ _ _ I h t x T X) as [_ SB]. assert (SN : sum_bits (d_fields x) = 8 * length r). { rewrite <- len_bits. fold (header_bits x). rewrite <- ER, bits_of_bytes_length. lia. } lia.
Qed.
Lemma emits_size d s hs ps : INV false d s -> emits d s hs ps -> headers_size d s hs = Some (length (concat ps)).
Proof.
  intros I. induction 1 as [|h x r hs rs L EN E IH|h hs rs D E IH]; cbn [headers_size concat]; auto.
  - apply live_valid in L as (t & T & X & V). rewrite T. cbn [bind]. rewrite X. cbn [bind]. rewrite IH. cbn [bind]. rewrite V. rewrite app_length. destruct (encodes_len _ _ _ _ _ _ I T X EN) as [-> _]. auto.
  - apply dead_invalid in D as (t & x & T & X & V). rewrite T. cbn [bind]. rewrite X. cbn [bind]. rewrite IH. cbn [bind]. rewrite V. auto.
Qed.
(** The bytes from [pos] on are overwritten by the encodings. *)
Lemma emit_spec d s hs ps : INV false d s -> emits d s hs ps -> forall done rest, bytes_ok rest -> length (concat ps) <= length rest ->
  emit d s hs (done ++ rest) (length done) = Some (done ++ concat ps ++ skipn (length (concat ps)) rest).
Proof.
  intros I. induction 1 as [|h x r hs rs L EN E IH|h hs rs D E IH]; intros dn rest BR LR; cbn [emit concat].
  - cbn [skipn length app]. auto.
  - apply live_valid in L as (t & T & X & V). rewrite T. cbn [bind]. rewrite X. cbn [bind]. rewrite V. cbn [concat] in LR. rewrite app_length in *. destruct (encodes_len _ _ _ _ _ _ I T X EN) as [LN SN].
    unfold write_at. rewrite skipn_app, skipn_all, Nat.sub_diag. cbn [skipn app].
    destruct (hdr_deparse_ok x rest (length r) BR SN) as (r' & ED & L' & B' & H'); [lia|]. destruct EN as [BE HE]. assert (r' = r) by (apply bits_of_bytes_inj; auto; congruence). subst r'. rewrite ED. cbn [bind].
    rewrite firstn_app, firstn_all, Nat.sub_diag. cbn [firstn]. rewrite app_nil_r. rewrite <- LN. rewrite (app_assoc dn r). rewrite <- app_length. rewrite IH.
    + rewrite skipn_skipn'. rewrite <- !app_assoc. repeat f_equal. 
    + apply bytes_ok_skipn; auto.
    + rewrite skipn_length. lia.
  - apply dead_invalid in D as (t & x & T & X & V). rewrite T. cbn [bind]. rewrite X. cbn [bind]. rewrite V. auto.
Qed.
Lemma emits_ok d s hs ps : emits d s hs ps -> bytes_ok (concat ps).
Proof. induction 1 as [|h x r hs rs L [BR _] E IH|h hs rs D E IH]; cbn [concat]; auto. - constructor. - apply bytes_ok_app; auto. Qed.
Lemma emits_fun d s hs ps : emits d s hs ps -> forall qs, emits d s hs qs -> ps = qs.
Proof.
  induction 1 as [|h x r hs rs L [BR ER] E IH|h hs rs D E IH]; intros qs Q; inversion Q as [|h' x' r' ? rs' L' [BR' ER'] E'|h' ? ? D' E']; subst; auto.
  - destruct L as (t & T & X & V), L' as (t' & T' & X' & V'). f_equal; auto. apply bits_of_bytes_inj; auto. congruence.
  - destruct L as (t & T & X & V), D' as (t' & x' & T' & X' & M' & V'). rewrite T in T'. injection T' as <-. rewrite X in X'. injection X' as <-. destruct V; congruence.
  - destruct D as (t & x & T & X & M & V), L' as (t' & T' & X' & V'). rewrite T in T'. injection T' as <-. rewrite X in X'. injection X' as <-. destruct V'; congruence.
Qed.
Lemma emits_total d s hs : INV false d s -> (forall h, In h hs -> h < length (ds_h d)) -> exists ps, emits d s hs ps.
Proof.
  intros I. induction hs as [|h hs IH]; intros HS; [exists []; constructor|]. destruct IH as (ps & E); [intros; apply HS; right; auto|].
  pose proof (HS h (or_introl eq_refl)) as LH. destruct (nth_error (ds_h d) h) as [t|] eqn:T; [|apply nth_error_None in T; lia]. destruct (H_get _ _ _ h I LH) as (x & X).
  destruct (hd_meta t || d_valid x) eqn:V.
  - pose proof (i_f _ _ _ I h t x T X) as [_ SB]. assert (SN : sum_bits (d_fields x) = 8 * Z.to_nat (d_nb x)) by lia.
    destruct (hdr_deparse_ok x (repeat 0%N (Z.to_nat (d_nb x))) _ (bytes_ok_zeros _) SN) as (r & _ & _ & BR & ER); [rewrite repeat_length; auto|].
    exists (r :: ps). apply em_live with x; auto; [|split; auto]. exists t. split; auto. split; auto. apply orb_true_iff; auto.
  - apply orb_false_iff in V as [V1 V2]. exists ps. apply em_dead; auto. exists t, x. auto.
Qed.

(** ** Parse followed by deparse *)
Definition eh := extracted_headers.
Lemma eh_app a b : eh (a ++ b) = eh a ++ eh b.
Proof. unfold eh, extracted_headers. rewrite map_app, concat_app. auto. Qed.
Record PI (d : desc) (s : phv) (ev : list event) : Prop := {
  pi_last : forall l1 h fs l2, ev = l1 ++ EvHdr h fs :: l2 -> (forall k, In k (eh l2) -> k <> h /\ ~ siblings d k h) -> exists x, H s h = Some x /\ d_valid x = true /\ d_fields x = fs;
  pi_only : forall h t x, nth_error (ds_h d) h = Some t -> H s h = Some x -> hd_meta t = false -> d_valid x = true -> In h (eh ev);
  pi_meta : forall h, In h (eh ev) -> ~ meta d h;
  pi_skip : forall n, ~ In (EvSkip n) ev }.

Lemma split_last {A} (ev l1 l2 : list A) e x : ev ++ [e] = l1 ++ x :: l2 -> (l2 = [] /\ ev = l1 /\ x = e) \/ (exists l3, l2 = l3 ++ [e] /\ ev = l1 ++ x :: l3).
Proof.
  intros E. destruct l2 as [|y l2] using rev_ind; [left|right].
  - apply app_inj_tail in E as [-> ->]. auto.
  - clear IHl2. exists l2. replace (l1 ++ x :: l2 ++ [y]) with ((l1 ++ x :: l2) ++ [y]) in E by (rewrite <- app_assoc; auto). apply app_inj_tail in E as [-> ->]. auto.
Qed.
(** A new extraction of [h]. *)
Lemma PI_hdr d s ev h x s' : wf d -> PI d s ev -> ~ meta d h -> H s' h = Some x -> d_valid x = true ->
  (forall k y, k <> h -> H s k = Some y -> H s' k = Some (after_valid d h k y)) -> length (p_h s') = length (p_h s) -> PI d s' (ev ++ [EvHdr h (d_fields x)]).
Proof.
  intros W [P1 P2 P3 P4] NM HX VX O LL. constructor.
  - intros l1 k fs l2 E NK. apply split_last in E as [(-> & -> & [= -> ->])|(l3 & -> & ->)]; [eauto|]. rewrite eh_app in NK. destruct (NK h) as [N1 N2]; [apply in_or_app; right; left; auto|].
    destruct (P1 l1 k fs l3 eq_refl) as (y & Y & VY & FY); [intros; apply NK, in_or_app; auto|]. exists y. split; auto. rewrite (O k y ltac:(auto) Y). f_equal. apply after_valid_other; auto.
  - intros k t y T Y M V. rewrite eh_app. apply in_or_app. destruct (Nat.eq_dec k h) as [->|N]; [right; left; auto|]. left. destruct (H s k) as [z|] eqn:Z.
    + rewrite (O k z N Z) in Y. injection Y as <-. apply (P2 k t z T Z M). destruct (d_valid z) eqn:VZ; auto. rewrite after_valid_inv in V by auto. congruence.
    + exfalso. unfold H in *. apply nth_error_None in Z. apply nth_error_lt in Y. lia.
  - intros k. rewrite eh_app. intros IN. apply in_app_or in IN as [IN|[<-|[]]]; auto.
  - intros n IN. apply in_app_or in IN as [IN|[IN|[]]]; [eapply P4; eauto|discriminate].
Qed.
Lemma PI_meta d s ev s' h : PI d s ev -> meta d h -> (forall k, k <> h -> H s' k = H s k) -> PI d s' ev.
Proof.
  intros [P1 P2 P3 P4] M O. constructor; auto.
  - intros l1 k fs l2 -> NK. destruct (P1 l1 k fs l2 eq_refl NK) as (x & X & V & F). exists x. split; auto. rewrite O; auto. intros ->. apply (P3 h); auto. rewrite eh_app. apply in_or_app. right. left. auto.
  - intros k t x T X MT V. destruct (Nat.eq_dec k h) as [->|N]; [destruct M as (t' & T' & M'); congruence|]. rewrite O in X by auto. eauto.
Qed.
Lemma store_others s h f v s' : store s h f v = Some s' -> forall k, k <> h -> H s' k = H s k.
Proof.
  intros E k N. unfold store, set_field in E. destruct (nth_error (p_h s) h) as [x|]; [|discriminate]. cbn [bind] in E. destruct (nth_error (d_fields x) f) as [o|]; [|discriminate]. cbn [bind] in E. injection E as <-. unfold H, set_h. cbn [p_h]. apply nth_error_list_set_neq. auto.
Qed.

Section PD.
Variables (legacy : bool) (lx : nat -> option (phv -> Z)) (d : desc) (data : list N).
Hypotheses (W : wf d) (WL : wf_layout d) (BD : bytes_ok data).

Lemma op_PI o s bp s' bp' ev0 ev : INV false d s -> bp <= length data -> pop_ok d o -> plain d o -> exec_op legacy lx d data o s bp = Some (inr (s', bp', ev)) -> PI d s ev0 -> PI d s' (ev0 ++ ev).
Proof.
  intros I HB OK PL E P. destruct o as [h vl|k vl|k i vl|h f g|h f off w|c e|f|n|g]; cbn [exec_op plain pop_ok] in *; try contradiction.
  - destruct (extract_one_spec lx d data W WL BD _ _ _ _ _ _ _ I HB E) as ([A B C (x & X & V & VF & EV & AC) O] & _). subst ev. eapply PI_hdr; eauto. apply B.
  - destruct (nth_error (ds_s d) k) as [el|] eqn:K; [|discriminate]. cbn [bind] in E. destruct (nth_error (p_s s) k) as [next|] eqn:N; [|discriminate]. cbn [bind] in E.
    destruct (Nat.leb_spec (length el) next) as [A|A]; [discriminate|]. destruct (nth_error el next) as [h|] eqn:NE; [|discriminate]. cbn [bind] in E.
    destruct (extract_one lx d s h vl data bp) as [[err|[[s1 bp1] ev1]]|] eqn:X; cbn [bind] in E; try discriminate. destruct (extract_one_spec lx d data W WL BD _ _ _ _ _ _ _ I HB X) as ([I1 FR L1 (x & HX & V & VF & EV & AC) O] & _).
    destruct (push_back d s1 k) as [q|] eqn:Q; [|discriminate]. cbn [bind] in E. injection E as <- <- <-. pose proof FR as (F1 & _ & F3 & _). assert (IE : In h el) by (eapply nth_error_In; eauto). destruct (wf_s_el _ W _ _ _ _ K IE IE) as (_ & NU & NM).
    unfold push_back in Q. rewrite K in Q. cbn [bind] in Q. rewrite F1, N in Q. cbn [bind] in Q. destruct (Nat.eqb_spec next (length el)); [lia|]. unfold at_el in Q. rewrite NE in Q. cbn [bind] in Q.
    destruct (mark_valid d s1 h) as [s2|] eqn:MV; [|discriminate]. cbn [bind] in Q. injection Q as <-. cbn [fst]. destruct (mark_valid_ok false d s1 h x W I1 HX) as (s3 & E3 & _ & FR3 & H3 & O3 & _). assert (s3 = s2) by congruence. subst s3.
    subst ev1. change (d_fields x) with (d_fields (with_valid x true)). assert (UN : um d h = None). { destruct (um d h) as [[u i]|] eqn:U; auto. exfalso. apply NU. exists u, i. apply um_member. auto. }
    eapply PI_hdr; eauto.
    + intros k' y N' Y. specialize (O k' y N' Y). specialize (O3 k' _ N' O). unfold H, set_s in *. cbn [p_h]. rewrite O3. f_equal. rewrite !after_valid_nu by auto. auto.
    + destruct FR3 as (_ & _ & F33 & _). unfold set_s. cbn [p_h]. congruence.
  - destruct (nth_error (ds_us d) k) as [el|] eqn:K; [|discriminate]. cbn [bind] in E. destruct (nth_error (p_us s) k) as [next|] eqn:N; [|discriminate]. cbn [bind] in E.
    destruct (Nat.leb_spec (length el) next) as [A|A]; [discriminate|]. destruct (nth_error el next) as [u|] eqn:NE; [|discriminate]. cbn [bind] in E.
    destruct (nth_error (ds_u d) u) as [m|] eqn:M; [|discriminate]. cbn [bind] in E. destruct (nth_error m i) as [h|] eqn:MI; [|discriminate]. cbn [bind] in E.
    destruct (extract_one lx d s h vl data bp) as [[err|[[s1 bp1] ev1]]|] eqn:X; cbn [bind] in E; try discriminate. destruct (extract_one_spec lx d data W WL BD _ _ _ _ _ _ _ I HB X) as ([I1 FR L1 (x & HX & V & VF & EV & AC) O] & _).
    destruct (push_back_u d s1 k) as [q|] eqn:Q; [|discriminate]. cbn [bind] in E. injection E as <- <- <-. subst ev1. assert (PH : p_h (fst q) = p_h s1).
    { unfold push_back_u in Q. rewrite K in Q. cbn [bind] in Q. destruct (nth_error (p_us s1) k) as [nx|]; [|discriminate]. cbn [bind] in Q. destruct (nx =? length el); injection Q as <-; auto. }
    eapply PI_hdr; eauto.
    + apply (wf_u_range _ W u i h). exists m. auto.
    + unfold H in *. rewrite PH. auto.
    + unfold H in *. rewrite PH. auto.
    + rewrite PH. apply FR.
  - destruct (store s h f (g s)) as [s1|] eqn:ST; [|discriminate]. cbn [bind] in E. injection E as <- <- <-. rewrite app_nil_r. eapply PI_meta; eauto. eapply store_others; eauto.
  - destruct (short _ _ _); [discriminate|]. destruct (peek off w data bp) as [b|]; [|discriminate]. cbn [bind] in E. destruct (store s h f (import_bytes b)) as [s1|] eqn:ST; [|discriminate]. cbn [bind] in E. injection E as <- <- <-. rewrite app_nil_r. eapply PI_meta; eauto. eapply store_others; eauto.
  - destruct (c s); [|discriminate]. injection E as <- <- <-. rewrite app_nil_r. auto.
Qed.
Lemma ops_PI ops : forall s bp s' bp' ev0 ev e, INV false d s -> bp <= length data -> Forall (pop_ok d) ops -> Forall (plain d) ops -> exec_ops legacy lx d data ops s bp = Some (s', bp', ev, e) -> PI d s ev0 -> PI d s' (ev0 ++ ev).
Proof.
  induction ops as [|o ops IH]; intros s bp s' bp' ev0 ev e I HB OK PL E P; cbn [exec_ops] in E; [injection E as <- <- <- <-; rewrite app_nil_r; auto|]. inversion OK as [|? ? OK1 OK2]; subst. inversion PL as [|? ? PL1 PL2]; subst.
  destruct (exec_op legacy lx d data o s bp) as [[err|[[s1 bp1] ev1]]|] eqn:X; [injection E as <- <- <- <-; rewrite app_nil_r; auto| |discriminate].
  destruct (exec_ops legacy lx d data ops s1 bp1) as [[[[s2 bp2] ev2] e2]|] eqn:Y; [|discriminate]. injection E as <- <- <- <-. destruct (exec_op_spec legacy lx d data W WL BD _ _ _ _ _ _ I HB OK1 X) as ([I1 L1 A1] & _). rewrite app_assoc.
  apply (IH s1 bp1 s2 bp2 (ev0 ++ ev1) ev2 e2); auto; [lia|]. exact (op_PI _ _ _ _ _ _ _ I HB OK1 PL1 X P).
Qed.
Lemma loop_PI env pg : prog_ok d pg -> (forall p, In p (pg_states pg) -> Forall (plain d) (st_ops p)) -> forall fuel st s bp ev s' payload ev' e, INV false d s -> bp <= length data ->
  parse_loop legacy lx d env (pg_states pg) data fuel st s bp ev = Done s' payload ev' e -> PI d s ev -> PI d s' ev'.
Proof.
  intros PO PL. induction fuel as [|fuel IH]; intros st s bp ev s' payload ev' e I HB E P; destruct st as [i|]; cbn [parse_loop] in E; try discriminate; try (destruct (bp <=? length data); [|discriminate]; injection E as <- <- <- <-; auto).
  destruct (nth_error (pg_states pg) i) as [p|] eqn:PS; [|discriminate]. pose proof (po_ops _ _ PO p (nth_error_In _ _ PS)) as OK. pose proof (PL p (nth_error_In _ _ PS)) as PLP.
  destruct (exec_ops legacy lx d data (st_ops p) s bp) as [[[[s1 bp1] ev1] [err|]]|] eqn:X; [..|discriminate]; destruct (exec_ops_spec legacy lx d data W WL BD _ _ _ _ _ _ _ I HB OK X) as ([I1 L1 A1] & _); pose proof (ops_PI _ _ _ _ _ _ _ _ I HB OK PLP X P) as P1.
  - destruct (bp1 <=? length data); [|discriminate]. injection E as <- <- <- <-. auto.
  - destruct (next_state d (env fuel) data p s1 bp1) as [st'|]; [|discriminate]. exact (IH _ _ _ _ _ _ _ _ I1 (proj2 L1) E P1).
Qed.
End PD.

(** The extracted headers are emitted from the pieces they came from. *)
Lemma split_in {A} (l : list A) x : In x l -> exists l1 l2, l = l1 ++ x :: l2.
Proof. apply in_split. Qed.
Lemma pieces_emit d s : forall hs ev pieces, INV false d s -> (forall h, In h hs -> h < length (ds_h d) /\ ~ meta d h) ->
  (forall h fs, In (EvHdr h fs) ev -> exists x, H s h = Some x /\ d_valid x = true /\ d_fields x = fs) -> (forall n, ~ In (EvSkip n) ev) ->
  Forall bytes_ok pieces -> Forall2 accounts pieces ev -> filter (fun h => match H s h with Some x => d_valid x | None => false end) hs = eh ev -> emits d s hs pieces.
Proof.
  induction hs as [|h hs IH]; intros ev pieces I HR PV NS BP AC FE; cbn [filter] in FE.
  - destruct ev as [|[k fs|n] ev]; [|discriminate|destruct (NS n); left; auto]. inversion AC; subst. constructor.
  - destruct (HR h (or_introl eq_refl)) as [LH NM]. destruct (nth_error (ds_h d) h) as [t|] eqn:T; [|apply nth_error_None in T; lia]. destruct (H_get _ _ _ h I LH) as (x & X). rewrite X in FE.
    assert (MT : hd_meta t = false) by (destruct (hd_meta t) eqn:M; auto; destruct NM; exists t; auto).
    destruct (d_valid x) eqn:V.
    + destruct ev as [|[k fs|n] ev]; [discriminate| |destruct (NS n); left; auto]. cbn [eh extracted_headers map ev_hdr concat app] in FE. injection FE as <- FE. inversion AC as [|p ? ps ? A1 A2]; subst. inversion BP; subst.
      destruct (PV h fs (or_introl eq_refl)) as (x' & X' & _ & FS). rewrite X in X'. injection X' as <-. apply em_live with x.
      * exists t. auto.
      * split; auto. cbn [accounts] in A1. rewrite A1. unfold header_bits. rewrite FS. auto.
      * apply (IH ev); auto; intros; [apply HR; right; auto|apply PV; right; auto|]. intros IN. apply (NS n). right. auto.
    + apply em_dead; [exists t, x; auto|]. apply (IH ev); auto. intros; apply HR; right; auto.
Qed.
