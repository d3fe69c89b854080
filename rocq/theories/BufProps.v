(** C51 the input buffer of a calculation. *)
From Coq Require Import List Arith NArith ZArith Bool Lia.
From Verif Require Import Base Bits Bytes EntryListSpec DataModel ExtractModel ExtractSpec ExtractProofs ExtractProps PhvModel PhvSpec PhvProofs PhvProofs4 PhvProps ParserModel ParserSpec ParserProofs ParserProofs3 ParserProps BufModel BufSpec BufProofs.
Import ListNotations.

Lemma rep_nil : rep [] [].
Proof. split; [constructor|]. split; auto. intros p. rewrite bitat_over by (cbn; lia). destruct p; auto. Qed.
(** The buffer is the concatenation of the bits of the inputs, in order, followed by zeros up to a byte boundary, then the
    payload if asked for. *)
Theorem C51_build : forall (legacy : bool) (d : desc) (s : phv) (es : list bentry) (parts : list (list bool)) (with_payload : bool) (payload : list N),
  wf d -> reach legacy d s -> Forall2 (input_bits d s) es parts -> aligned 0 es parts ->
  exists buf, build d s es with_payload payload = Some (buf ++ (if with_payload then payload else [])) /\ bytes_ok buf /\ bits_of_bytes buf = padded_bits (concat parts).
Proof.
  intros legacy d s es parts wp pl W R F AL. pose proof (reach_INV _ _ _ W R) as I. destruct (put_all_spec d s es parts [] [] W I F AL rep_nil) as (r & E & RR). cbn [length app] in E, RR.
  exists r. unfold build. rewrite E. cbn [bind]. split; [destruct wp; rewrite ?app_nil_r; auto|]. split; [apply RR|]. apply rep_bits; auto.
Qed.
(** The inputs of a well-formed calculation contribute exactly one bit string each. *)
Theorem C51_inputs : forall (legacy : bool) (d : desc) (s : phv) (es : list bentry), wf d -> reach legacy d s -> Forall (entry_ok d) es ->
  exists parts, Forall2 (input_bits d s) es parts /\ forall parts', Forall2 (input_bits d s) es parts' -> parts' = parts.
Proof.
  intros legacy d s es W R EO. pose proof (reach_INV _ _ _ W R) as I.
  assert (LD : forall h x, live d s h x -> dead d s h -> False).
  { intros h x (t & T & X & V) (t' & x' & T' & X' & M & V'). rewrite T in T'. injection T' as <-. rewrite X in X'. injection X' as <-. destruct V; congruence. }
  assert (LL : forall h x y, live d s h x -> live d s h y -> x = y) by (intros h x y (t & _ & A & _) (t' & _ & B & _); congruence).
  assert (UN : forall e b b', input_bits d s e b -> input_bits d s e b' -> b = b').
  { intros e b b' A B. destruct A as [h f x v L F|v b HV|h x L|h f D|h D]; inversion B as [h' f' x' v' L' F'|v' b2 HV'|h' x' L'|h' f' D'|h' D']; subst; auto; try (exfalso; eauto; fail).
    - rewrite (LL _ _ _ L L') in F. congruence.
    - eapply holds_val_inj; eauto.
    - rewrite (LL _ _ _ L L'). auto. }
  induction EO as [|e es O EO (ps & F & U)].
  - exists []. split; auto. intros p F. inversion F. auto.
  - assert (exists b, input_bits d s e b) as (b & B).
    { assert (LV : forall h, h < length (ds_h d) -> exists t x, nth_error (ds_h d) h = Some t /\ header s h = Some x /\ ((hd_meta t = true \/ d_valid x = true) \/ hd_meta t = false /\ d_valid x = false)).
      { intros h L. destruct (nth_error (ds_h d) h) as [t|] eqn:T; [|apply nth_error_None in T; lia]. destruct (nth_error (p_h s) h) as [x|] eqn:X; [|apply nth_error_None in X; rewrite (i_h _ _ _ I) in X; lia].
        exists t, x. split; auto. split; auto. destruct (hd_meta t), (d_valid x); auto. }
      destruct e as [h f|v w|h]; cbn in O.
      - destruct O as (t0 & T0 & FL). destruct (LV h) as (t & x & T & X & V); [apply nth_error_Some; congruence|]. rewrite T0 in T. injection T as <-. destruct V as [V|[M V]].
        + pose proof (i_f _ _ _ I h t0 x T0 X) as [FO _]. destruct (nth_error (d_fields x) f) as [v|] eqn:FV; [|apply nth_error_None in FV; apply F2_len in FO; lia].
          exists (field_bits v). apply ib_field with x; auto. exists t0. auto.
        + exists []. apply ib_dead_field. exists t0, x. auto.
      - destruct O as (b & <- & HV). exists b. constructor. auto.
      - destruct (LV h O) as (t & x & T & X & [V|[M V]]); [exists (header_bits x); constructor; exists t; auto|exists []; apply ib_dead_header; exists t, x; auto]. }
    exists (b :: ps). split; auto. intros p F'. inversion F' as [|? b' ? ps' B' F2]; subst. f_equal; eauto.
Qed.
(** A whole header that does not start on a byte boundary fails the assertion. *)
Theorem C51_misaligned_header : forall (legacy : bool) (d : desc) (s : phv) (es1 es2 : list bentry) (parts : list (list bool)) (h : nat) (wp : bool) (payload : list N),
  wf d -> reach legacy d s -> Forall2 (input_bits d s) es1 parts -> aligned 0 es1 parts -> length (concat parts) mod 8 <> 0 -> build d s (es1 ++ BHeader h :: es2) wp payload = None.
Proof.
  intros legacy d s es1 es2 parts h wp pl W R F AL NZ. pose proof (reach_INV _ _ _ W R) as I. unfold build.
  assert (G : forall es1 parts P buf, Forall2 (input_bits d s) es1 parts -> aligned (length P) es1 parts -> rep buf P -> length (P ++ concat parts) mod 8 <> 0 -> put_all d s (es1 ++ BHeader h :: es2) buf (length P) = None).
  { clear - W I. induction es1 as [|e es IH]; intros parts P buf F AL RP NZ; inversion F as [|? b ? parts' IB F']; subst; cbn [app put_all].
    - cbn [concat] in NZ. rewrite app_nil_r in NZ. cbn [put]. destruct (Nat.eqb_spec (length P mod 8) 0); [lia|]. reflexivity.
    - destruct AL as [A1 A2]. destruct (put_spec d s e b buf P W I IB A1 RP) as (r & E & RR). rewrite E. cbn [bind fst snd concat] in *. rewrite <- app_length in *. rewrite app_assoc in NZ. apply (IH parts' (P ++ b)); auto. }
  pose proof (G es1 parts [] [] F AL rep_nil NZ) as E. cbn [length] in E. rewrite E. reflexivity.
Qed.

(** Header 0 of pe_d is valid with fields 4 and 12 bits, header 1 is not. *)
Definition be_state : option phv := run false pe_d (create pe_d) [OExtract 0 0 [5%Z; 700%Z]].
Definition be_inputs : list bentry := [BHeader 0; BField 1 0; BField 0 0; BConst [1; 255]%N 10; BField 0 1].
Example C51_ex_build : exists s, be_state = Some s /\ reach false pe_d s /\ Forall (entry_ok pe_d) be_inputs /\ build pe_d s be_inputs true [9; 9]%N = Some [82; 188; 87; 252; 175; 0; 9; 9]%N.
Proof.
  eexists. split; [vm_compute; reflexivity|]. split; [|split; [|vm_compute; reflexivity]].
  - exists [OExtract 0 0 [5%Z; 700%Z]]. split; [|vm_compute; reflexivity]. constructor; auto. eexists. split; [reflexivity|]. split; reflexivity.
  - repeat constructor; cbn; try lia; try (eexists; split; [reflexivity|cbn; lia]). exists (bitsN 10 511). split; [reflexivity|]. split; [repeat constructor|]. split; reflexivity.
Qed.
Example C51_ex_inputs : exists s parts, be_state = Some s /\ Forall2 (input_bits pe_d s) be_inputs parts /\ aligned 0 be_inputs parts /\ concat parts = bits_of_bytes [82; 188]%N ++ bitsN 4 5 ++ bitsN 10 511 ++ bitsN 12 700.
Proof.
  eexists. exists [bits_of_bytes [82; 188]%N; []; bitsN 4 5; bitsN 10 511; bitsN 12 700]. split; [vm_compute; reflexivity|]. split; [|split; [cbn; auto 10|reflexivity]]. set (s := mk_phv _ _ _ _).
  assert (L : live pe_d s 0 (mk_hdr true true [(4, 5%Z); (12, 700%Z)] 2)) by (eexists; split; [reflexivity|split; [reflexivity|right; reflexivity]]).
  assert (D : dead pe_d s 1) by (eexists; eexists; split; [reflexivity|split; [reflexivity|split; reflexivity]]).
  constructor; [exact (ib_header pe_d s 0 _ L)|]. constructor; [apply ib_dead_field; auto|]. constructor; [exact (ib_field pe_d s 0 0 _ (4, 5%Z) L eq_refl)|].
  constructor; [apply (ib_const pe_d s [1; 255]%N (bitsN 10 511)); split; [repeat constructor|split; reflexivity]|]. constructor; [exact (ib_field pe_d s 0 1 _ (12, 700%Z) L eq_refl)|constructor].
Qed.
Example C51_ex_misaligned : exists s, be_state = Some s /\ build pe_d s [BField 0 0; BHeader 0] false [] = None.
Proof. eexists. split; vm_compute; reflexivity. Qed.
(** Finding: the width of a constant is not checked against its number of bytes; a constant with fewer bytes is read out of
    bounds, of one with more bytes the first ones are used. *)
Theorem C51_short_constant_refuted : ~ (forall d s v w, wf d -> reach false d s -> bytes_ok v -> v <> [] -> (be_val v < 2 ^ N.of_nat w)%N -> build d s [BConst v w] false [] <> None).
Proof. intros C. refine (C pe_d (create pe_d) [7%N] 16 pe_wf (pe_reach false) _ _ _ _); [repeat constructor|discriminate|vm_compute; reflexivity|vm_compute; reflexivity]. Qed.
Theorem C51_long_constant_refuted :
  ~ (forall d s v w buf, wf d -> reach false d s -> bytes_ok v -> (be_val v < 2 ^ N.of_nat w)%N -> build d s [BConst v w] false [] = Some buf -> bits_of_bytes buf = padded_bits (bitsN w (be_val v))).
Proof. intros C. epose proof (C pe_d (create pe_d) [0; 7]%N 8 _ pe_wf (pe_reach false) _ _ eq_refl) as E. vm_compute in E. discriminate. Unshelve. repeat constructor. vm_compute. reflexivity. Qed.

Print Assumptions C51_build.
Print Assumptions C51_inputs.
Print Assumptions C51_misaligned_header.
Print Assumptions C51_short_constant_refuted.
Print Assumptions C51_long_constant_refuted.
