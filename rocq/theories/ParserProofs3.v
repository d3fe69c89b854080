(** Proofs about the parser model: select keys, cases, value sets. *)
From Coq Require Import List Arith NArith ZArith Bool Lia.
From Verif Require Import Base Bits Bytes EntryListSpec DataModel ExtractModel ExtractSpec ExtractProofs ExtractProps PhvModel PhvSpec PhvProofs PhvProofs2 PhvProofs3 PhvProofs4 PhvProofs5 PhvProofs6 PhvProofs7 PhvProps ParserModel ParserSpec ParserProofs ParserProofs2.
Import ListNotations.

Lemma bytes_eqb_eq a b : bytes_eqb a b = true <-> a = b.
Proof.
  revert b. induction a as [|x a IH]; intros [|y b]; cbn [bytes_eqb]; split; intros E; try congruence.
  - apply andb_true_iff in E as [A B]. apply N.eqb_eq in A. apply IH in B. congruence.
  - injection E as -> ->. rewrite N.eqb_refl. apply IH. auto.
Qed.
Lemma mem_in v l : mem v l = true <-> In v l.
Proof. unfold mem. rewrite existsb_exists. split; [intros (x & A & B); apply bytes_eqb_eq in B; congruence|intros A; exists v; split; auto; apply bytes_eqb_eq; auto]. Qed.

(** ** Masks *)
Lemma bitsN_land w a b : bitsN w (N.land a b) = map2 andb (bitsN w a) (bitsN w b).
Proof.
  apply (nth_ext _ _ false false); [rewrite map2_length; rewrite !bitsN_length; auto|]. rewrite bitsN_length. intros n L. rewrite (map2_nth andb _ _ n false false false) by (rewrite ?bitsN_length; auto).
  rewrite !bitsN_nth by auto. apply N.land_spec.
Qed.
Lemma bits_land a : forall b, length a = length b -> bits_of_bytes (map2 N.land a b) = map2 andb (bits_of_bytes a) (bits_of_bytes b).
Proof.
  induction a as [|x a IH]; intros [|y b] L; try discriminate; [reflexivity|]. cbn [map2]. rewrite !bits_of_bytes_cons. rewrite map2_app by (rewrite !bitsN_length; auto). rewrite bitsN_land, IH; auto.
Qed.
Lemma masked_eq m a b : bytes_ok a -> bytes_ok b -> length a = length m -> length b = length m -> (map2 N.land a m = map2 N.land b m <-> agree_on m a b).
Proof.
  intros BA BB LA LB. assert (LE : length (bits_of_bytes a) = length (bits_of_bytes m) /\ length (bits_of_bytes b) = length (bits_of_bytes m)) by (rewrite !bits_of_bytes_length; lia). destruct LE as [L1 L2]. split.
  - intros E p P. apply (f_equal bits_of_bytes) in E. rewrite !bits_land in E by auto. destruct (Nat.lt_ge_cases p (length (bits_of_bytes m))) as [L|L].
    + apply (f_equal (fun l => nth p l false)) in E. rewrite !(map2_nth andb _ _ p false false false) in E by lia. rewrite P, !andb_true_r in E. auto.
    + rewrite nth_overflow in P by auto. discriminate.
  - intros A. apply bits_of_bytes_inj; [apply bytes_ok_map2_land; auto|apply bytes_ok_map2_land; auto|]. rewrite !bits_land by auto. apply (nth_ext _ _ false false); [rewrite !map2_length; lia|].
    rewrite map2_length by auto. intros p L. rewrite !(map2_nth andb _ _ p false false false) by lia. destruct (nth p (bits_of_bytes m) false) eqn:P; [|rewrite !andb_false_r; auto]. rewrite !andb_true_r. auto.
Qed.
Lemma mask_match_spec key : forall mask input, length key = length mask -> length input = length mask -> exists b, mask_match key mask input = Some b /\ (b = true <-> map2 N.land key mask = map2 N.land input mask).
Proof.
  induction key as [|k key IH]; intros [|m mask] [|i input] L1 L2; try discriminate; cbn [mask_match map2].
  - exists true. split; auto. tauto.
  - destruct (N.eqb_spec (N.land k m) (N.land i m)) as [E|E].
    + destruct (IH mask input) as (b & -> & B); auto. exists b. split; auto. rewrite B, E. split; congruence.
    + exists false. split; auto. split; [discriminate|congruence].
Qed.
Lemma case_match_spec env c key n : length key = n -> bytes_ok key -> (forall k m nx, c = CMask k m nx -> bytes_ok k) -> case_sized env n c -> exists b, case_match env c key = Some b /\ (b = true <-> case_matches env c key).
Proof.
  intros L BK BC CS. destruct c as [k nx|k m nx|i j nx]; cbn [case_match case_matches case_sized] in *.
  - eexists. split; [reflexivity|]. rewrite bytes_eqb_eq. split; congruence.
  - destruct CS as [A B]. destruct (mask_match_spec k m key) as (b & -> & E); [lia|lia|]. exists b. split; auto. rewrite E. apply masked_eq; auto; [eapply BC; eauto|lia|lia].
  - destruct CS as (vs & sh & V & J & SW & M). rewrite V. cbn [bind]. rewrite J. cbn [bind]. assert (exists b, sh_contains sh key = Some b) as (b & E).
    { unfold sh_contains, transform. destruct (sh_mask sh) as [m|] eqn:MK; [rewrite (proj2 (Nat.leb_le _ _)) by (rewrite (M m eq_refl); lia)|]; cbn [bind]; rewrite L, SW, Nat.eqb_refl; eauto. }
    exists b. split; auto. split; [intros ->; exists vs, sh; auto|]. intros (vs' & sh' & V' & J' & E'). congruence.
Qed.
Lemma select_spec env cs dflt key n : length key = n -> bytes_ok key -> Forall (fun c => forall k m nx, c = CMask k m nx -> bytes_ok k) cs -> Forall (case_sized env n) cs ->
  (exists i c, nth_error cs i = Some c /\ case_matches env c key /\ select env cs dflt key = Some (case_next c) /\ forall j c', j < i -> nth_error cs j = Some c' -> ~ case_matches env c' key) \/
  (select env cs dflt key = Some dflt /\ forall c, In c cs -> ~ case_matches env c key).
Proof.
  intros L BK. induction cs as [|c cs IH]; intros BC CS; [right; split; [reflexivity|intros c []]|]. inversion BC as [|? ? BC1 BC2]; inversion CS as [|? ? CS1 CS2]; subst. cbn [select].
  destruct (case_match_spec env c key _ eq_refl BK BC1 CS1) as (b & -> & B). cbn [bind]. destruct b.
  - left. exists 0, c. split; auto. split; [apply B; auto|]. split; auto. intros j c' Lj. lia.
  - assert (NM : ~ case_matches env c key) by (intros M; apply B in M; discriminate). destruct (IH BC2 CS2) as [(i & c' & A1 & A2 & A3 & A4)|[A1 A2]].
    + left. exists (S i), c'. split; auto. split; auto. split; auto. intros [|j] c'' Lj E; cbn in E; [congruence|]. eapply A4; eauto. lia.
    + right. split; auto. intros c' [<-|IN]; auto.
Qed.

(** ** Keys *)
Lemma field_bytes_holds f : holds (field_bits f) (field_bytes f).
Proof.
  destruct f as [w v]. unfold holds, field_bits, field_bytes. cbn [fst snd]. rewrite bitsN_length. split; [apply be_enc_ok|]. split; [apply be_enc_length|]. rewrite bits_be_enc.
  pose proof (nbw_spec w) as NB. unfold nbw in NB. set (nb := (w + 7) / 8) in *. set (x := Z.to_N (v mod 2 ^ Z.of_nat w)).
  assert (XL : (x < 2 ^ N.of_nat w)%N). { unfold x. apply N2Z.inj_lt. rewrite N2Z.inj_pow, nat_N_Z, Z2N.id; apply Z.mod_pos_bound; lia. }
  replace (8 * nb) with ((8 * nb - w) + w) at 1 by lia. rewrite bitsN_app. f_equal. apply (nth_ext _ _ false false); [rewrite bitsN_length, repeat_length; auto|]. rewrite bitsN_length. intros n L.
  rewrite bitsN_nth by auto. rewrite N.shiftr_spec by lia. rewrite nth_repeat. rewrite <- Nat2N.inj_add. apply (testbit_high x w); auto. lia.
Qed.
Lemma header_field_spec s h f b : header_field s h f = Some b -> exists bits, field_is s h f bits /\ holds bits b.
Proof.
  unfold header_field. destruct (nth_error (p_h s) h) as [x|] eqn:X; [|discriminate]. cbn [bind]. destruct (nth_error (d_fields x) f) as [o|] eqn:O; [|discriminate]. cbn [bind]. intros [= <-].
  exists (field_bits o). split; [exists x, o; auto|apply field_bytes_holds].
Qed.
Lemma key_entry_spec d s data bp k b : bytes_ok data -> key_entry d s data bp k = Some b -> (forall off w, k = KLook off w -> 0 < w) -> exists bits, entry_bits d s data bp k bits /\ holds bits b.
Proof.
  intros BD E LK. destruct k as [h f|k f|k i f|off w]; cbn [key_entry entry_bits] in *.
  - apply header_field_spec; auto.
  - destruct (nth_error (ds_s d) k) as [e|] eqn:K; [|discriminate]. cbn [bind] in E. destruct (nth_error (p_s s) k) as [[|n]|] eqn:N; [discriminate| |discriminate]. cbn [bind last_of] in E.
    destruct (nth_error e n) as [h|] eqn:Hn; [|discriminate]. cbn [bind] in E. destruct (header_field_spec _ _ _ _ E) as (bits & A & B). exists bits. split; auto. exists e, n, h. auto.
  - destruct (nth_error (ds_us d) k) as [e|] eqn:K; [|discriminate]. cbn [bind] in E. destruct (nth_error (p_us s) k) as [[|n]|] eqn:N; [discriminate| |discriminate]. cbn [bind last_of] in E.
    destruct (nth_error e n) as [u|] eqn:Hn; [|discriminate]. cbn [bind] in E. destruct (nth_error (ds_u d) u) as [m|] eqn:M; [|discriminate]. cbn [bind] in E. destruct (nth_error m i) as [h|] eqn:MI; [|discriminate]. cbn [bind] in E.
    destruct (header_field_spec _ _ _ _ E) as (bits & A & B). exists bits. split; auto. exists e, n, u, h. split; auto. split; auto. split; auto. split; auto. exists m. auto.
  - specialize (LK off w eq_refl). unfold peek in E. pose proof (adv off) as [A1 A2]. pose proof (g_extract_fits _ _ _ _ _ E LK A2) as FT. rewrite !skipn_length in FT.
    assert (OK : bytes_ok (skipn (off / 8) (skipn bp data))) by (do 2 apply bytes_ok_skipn; auto).
    destruct (C25_extract (skipn (off / 8) (skipn bp data)) (off mod 8) w (repeat 0%N ((w + 7) / 8)) OK A2 LK) as (b' & E' & HB); [rewrite !skipn_length; lia|apply repeat_length|].
    rewrite E in E'. injection E' as <-. eexists. split; [split; [|reflexivity]; lia|]. rewrite bits_skipn, skipn_skipn' in HB. replace off with (8 * (off / 8) + off mod 8) at 1 by lia. exact HB.
Qed.
Lemma build_key_spec d s data bp ks : forall key, bytes_ok data -> (forall off w, In (KLook off w) ks -> 0 < w) -> build_key d s data bp ks = Some key ->
  exists fs bs, Forall2 (entry_bits d s data bp) ks fs /\ Forall2 holds fs bs /\ key = concat bs.
Proof.
  induction ks as [|k ks IH]; intros key BD LK E; cbn [build_key] in E; [injection E as <-; exists [], []; split; [constructor|]; split; [constructor|auto]|].
  destruct (key_entry d s data bp k) as [b|] eqn:KE; [|discriminate]. cbn [bind] in E. destruct (build_key d s data bp ks) as [l|] eqn:BK; [|discriminate]. cbn [bind] in E. injection E as <-.
  destruct (key_entry_spec _ _ _ _ _ _ BD KE) as (f & A & B); [intros off w ->; apply (LK off); left; auto|]. destruct (IH l BD) as (fs & bs & C & D & ->); auto; [intros off w IN; apply (LK off); right; auto|].
  exists (f :: fs), (b :: bs). split; [constructor; auto|]. split; [constructor; auto|auto].
Qed.
Lemma holds_concat fs bs : Forall2 holds fs bs -> bytes_ok (concat bs) /\ length (concat bs) = key_bytes (map (@length bool) fs).
Proof.
  induction 1 as [|f b fs bs (A & B & C) F (IH1 & IH2)]; [split; [constructor|auto]|]. cbn [concat]. rewrite bytes_ok_app, app_length. split; [auto|]. unfold key_bytes in *. cbn [map fold_right]. rewrite B, IH2. auto.
Qed.

(** ** Value sets *)
Definition sh_step (sh : shadow) (o : vop) : option shadow :=
  match o with VAdd v => sh_add v sh | VRemove v => sh_remove v sh | VClear => Some (with_set sh []) end.
Fixpoint sh_run (sh : shadow) (l : list vop) : option shadow := match l with [] => Some sh | o :: r => bind (sh_step sh o) (fun sh1 => sh_run sh1 r) end.
Lemma map_opt_nth {A B} (f : A -> option B) l : forall l' j x, map_opt f l = Some l' -> nth_error l j = Some x -> exists y, f x = Some y /\ nth_error l' j = Some y.
Proof.
  induction l as [|a l IH]; intros l' [|j] x E N; try discriminate; cbn [map_opt] in E; cbn in N; destruct (f a) as [y|] eqn:F; try discriminate; cbn [bind] in E; destruct (map_opt f l) as [ys|] eqn:M; try discriminate; cbn [bind] in E; injection E as <-.
  - injection N as <-. exists y. auto.
  - apply (IH ys j x); auto.
Qed.
Lemma vs_run_nth l : forall vs vs' j sh, vs_run vs l = Some vs' -> nth_error vs j = Some sh -> exists sh', sh_run sh l = Some sh' /\ nth_error vs' j = Some sh'.
Proof.
  induction l as [|o l IH]; intros vs vs' j sh E N; cbn [vs_run sh_run] in *; [injection E as <-; eauto|].
  destruct (vs_step vs o) as [vs1|] eqn:ST; [|discriminate]. cbn [bind] in E. assert (exists sh1, sh_step sh o = Some sh1 /\ nth_error vs1 j = Some sh1) as (sh1 & -> & N1).
  { destruct o as [v|v|]; cbn [vs_step sh_step] in *; [eapply map_opt_nth; eauto|eapply map_opt_nth; eauto|]. injection ST as <-. eexists. split; [reflexivity|]. rewrite nth_error_map, N. auto. }
  cbn [bind]. eapply IH; eauto.
Qed.
Lemma sh_run_app l1 : forall sh l2, sh_run sh (l1 ++ l2) = bind (sh_run sh l1) (fun sh1 => sh_run sh1 l2).
Proof. induction l1 as [|o l1 IH]; intros sh l2; cbn [app sh_run bind]; auto. destruct (sh_step sh o); cbn [bind]; auto. Qed.
Lemma sh_step_same sh o sh' : sh_step sh o = Some sh' -> sh_pad sh' = sh_pad sh /\ sh_width sh' = sh_width sh /\ sh_mask sh' = sh_mask sh.
Proof.
  destruct o as [v|v|]; cbn [sh_step]; unfold sh_add, sh_remove; [destruct (prepared sh v)|destruct (prepared sh v)|]; cbn [bind]; try discriminate; intros [= <-]; auto.
Qed.
Lemma sh_run_same l : forall sh sh', sh_run sh l = Some sh' -> sh_pad sh' = sh_pad sh /\ sh_width sh' = sh_width sh /\ sh_mask sh' = sh_mask sh.
Proof.
  induction l as [|o l IH]; intros sh sh' E; cbn [sh_run] in E; [injection E as <-; auto|]. destruct (sh_step sh o) as [sh1|] eqn:S1; [|discriminate]. cbn [bind] in E.
  destruct (IH _ _ E) as (A & B & C). destruct (sh_step_same _ _ _ S1) as (A1 & B1 & C1). rewrite A, B, C. auto.
Qed.
Lemma prepared_same sh sh' v : sh_pad sh' = sh_pad sh -> sh_width sh' = sh_width sh -> sh_mask sh' = sh_mask sh -> prepared sh' v = prepared sh v.
Proof. intros A B C. unfold prepared, do_padding, transform. rewrite A, B, C. auto. Qed.

Lemma present_add R l v : present R (l ++ [VAdd v]) <-> R v \/ present R l.
Proof.
  split.
  - intros (l1 & v' & l2 & E & RV & NO). destruct l2 as [|o l2 _] using rev_ind.
    + apply app_inj_tail in E as [_ [= ->]]. auto.
    + rewrite app_comm_cons, app_assoc in E. apply app_inj_tail in E as [-> _]. right. exists l1, v', l2. split; auto. split; auto. intros o' IN. apply NO. apply in_or_app. auto.
  - intros [RV|(l1 & v' & l2 & -> & RV & NO)].
    + exists l, v, []. split; [auto|]. split; [auto|]. intros o [].
    + exists l1, v', (l2 ++ [VAdd v]). split; [rewrite <- app_assoc; auto|]. split; auto. intros o IN. apply in_app_or in IN as [IN|[<-|[]]]; [auto|]. split; [discriminate|intros; discriminate].
Qed.
Lemma present_remove R l v : present R (l ++ [VRemove v]) <-> present R l /\ ~ R v.
Proof.
  split.
  - intros (l1 & v' & l2 & E & RV & NO). destruct l2 as [|o l2 _] using rev_ind; [apply app_inj_tail in E as [_ E]; discriminate|].
    rewrite app_comm_cons, app_assoc in E. apply app_inj_tail in E as [-> <-]. split; [exists l1, v', l2; split; auto; split; auto; intros o' IN; apply NO; apply in_or_app; auto|].
    apply (NO (VRemove v)); [apply in_or_app; right; left; auto|auto].
  - intros [(l1 & v' & l2 & -> & RV & NO) NR]. exists l1, v', (l2 ++ [VRemove v]). split; [rewrite <- app_assoc; auto|]. split; auto. intros o IN. apply in_app_or in IN as [IN|[<-|[]]]; [auto|].
    split; [discriminate|]. intros v2 [= ->]. auto.
Qed.
Lemma present_clear R l : ~ present R (l ++ [VClear]).
Proof.
  intros (l1 & v' & l2 & E & RV & NO). destruct l2 as [|o l2 _] using rev_ind; [apply app_inj_tail in E as [_ E]; discriminate|].
  rewrite app_comm_cons, app_assoc in E. apply app_inj_tail in E as [_ <-]. apply (NO VClear); auto. apply in_or_app. right. left. auto.
Qed.
Lemma present_nil R : ~ present R [].
Proof. intros (l1 & v & l2 & E & _). destruct l1; discriminate. Qed.
Lemma present_ext (R R' : list N -> Prop) l : (forall v, In (VAdd v) l \/ In (VRemove v) l -> (R v <-> R' v)) -> (present R l <-> present R' l).
Proof.
  assert (HH : forall R R' : list N -> Prop, (forall v, In (VAdd v) l \/ In (VRemove v) l -> (R v <-> R' v)) -> present R l -> present R' l).
  { intros P P' E (l1 & v & l2 & -> & PV & NO). exists l1, v, l2. split; auto. split; [apply E; auto; left; apply in_or_app; right; left; auto|]. intros o IN. destruct (NO o IN) as [A B]. split; auto. intros v' -> PV'. apply (B v' eq_refl). apply E; auto.
    right. apply in_or_app. right. right. auto. }
  intros E. split; apply HH; auto. intros v IN. symmetry. auto.
Qed.

Lemma sh_set_spec sh0 l : forall sh', sh_set sh0 = [] -> sh_run sh0 l = Some sh' -> forall q, In q (sh_set sh') <-> present (fun v => prepared sh0 v = Some q) l.
Proof.
  induction l as [|o l IH] using rev_ind; intros sh' E0 E q.
  - injection E as <-. rewrite E0. split; [intros []|]. intros P. exfalso. eapply present_nil; eauto.
  - rewrite sh_run_app in E. destruct (sh_run sh0 l) as [sh1|] eqn:R1; [|discriminate]. cbn [bind sh_run] in E. specialize (IH sh1 E0 eq_refl q). destruct (sh_run_same _ _ _ R1) as (S1 & S2 & S3).
    destruct (sh_step sh1 o) as [sh2|] eqn:ST; [|discriminate]. cbn [bind] in E. injection E as <-. destruct o as [v|v|]; cbn [sh_step] in ST.
    + unfold sh_add in ST. rewrite (prepared_same sh0 sh1) in ST by auto. destruct (prepared sh0 v) as [p|] eqn:P; [|discriminate]. cbn [bind] in ST. injection ST as <-. cbn [with_set sh_set]. rewrite present_add, P, <- IH.
      destruct (mem p (sh_set sh1)) eqn:M; [apply mem_in in M; split; auto; intros [[= ->]|A]; auto|]. cbn [In]. split; intros [A|A]; auto; [left; congruence|injection A; auto].
    + unfold sh_remove in ST. rewrite (prepared_same sh0 sh1) in ST by auto. destruct (prepared sh0 v) as [p|] eqn:P; [|discriminate]. cbn [bind] in ST. injection ST as <-. cbn [with_set sh_set]. rewrite present_remove, P, <- IH.
      rewrite filter_In, negb_true_iff. destruct (bytes_eqb p q) eqn:B; [apply bytes_eqb_eq in B; subst; split; [intros [_ A]; discriminate|intros [_ A]; congruence]|]. split; intros [A C]; split; auto.
      intros [= ->]. assert (bytes_eqb q q = true) by (apply bytes_eqb_eq; auto). congruence.
    + injection ST as <-. cbn [with_set sh_set]. split; [intros []|]. intros A. exfalso. eapply present_clear; eauto.
Qed.

Lemma cut_cat fs : cut (map (@length bool) fs) (concat fs) = fs.
Proof. pose proof (cut_concat fs []) as E. rewrite app_nil_r in E. auto. Qed.
Lemma lay_pos ws : Forall (fun w => 0 < w) ws -> forall off, lay off ws.
Proof. induction 1 as [|w ws P F IH]; intros off; cbn [lay]; auto. Qed.
(** The padded form of a value is the key of its fields. *)
Lemma padded ws mask fs v : Forall (fun w => 0 < w) ws -> map (@length bool) fs = ws -> holds (concat fs) v -> exists bs, do_padding (new_shadow ws mask) v = Some (concat bs) /\ Forall2 holds fs bs.
Proof.
  intros P M (B & L & E). unfold do_padding. cbn [new_shadow sh_pad].
  assert (GEN : exists bs, (if length v =? (total ws + 7) / 8 then bind (h_extract ws v (8 * length v - total ws)) (fun bs => Some (concat bs)) else None) = Some (concat bs) /\ Forall2 holds fs bs).
  { rewrite <- total_len, M in L, E. rewrite L, Nat.eqb_refl. pose proof (nbw_spec (total ws)) as NB. unfold nbw in NB. set (nb := (total ws + 7) / 8) in *. destruct (h_extract_ok ws v (8 * nb - total ws) B) as (bs & -> & F); [lia|apply lay_pos; auto|lia|].
    cbn [bind]. exists bs. split; auto. rewrite E in F. rewrite skipn_app, repeat_length, Nat.sub_diag, skipn_all2 in F by (rewrite repeat_length; lia). cbn [app skipn] in F. rewrite <- M, cut_cat in F. auto. }
  destruct ws as [|w [|w2 ws]]; [exact GEN| |exact GEN]. destruct fs as [|f [|f2 fs]]; try discriminate. exists [v]. cbn [concat] in *. rewrite !app_nil_r in *. split; auto. constructor; [|constructor]. split; auto.
Qed.
Lemma holds_len_eq fs fs' bs bs' : Forall2 holds fs bs -> Forall2 holds fs' bs' -> map (@length bool) fs = map (@length bool) fs' -> concat bs = concat bs' -> bs = bs'.
Proof.
  intros F. revert fs' bs'. induction F as [|f b fs bs HF F IH]; intros fs' bs' F' M E; inversion F' as [|f' b' fs2 bs2 HF' F2]; subst; try discriminate; auto. cbn [map concat] in *. injection M as M1 M2.
  assert (LB : length b = length b') by (destruct HF as (_ & -> & _), HF' as (_ & -> & _); rewrite M1; auto).
  assert (EB : b = b' /\ concat bs = concat bs2).
  { apply (f_equal (firstn (length b))) in E as E1. apply (f_equal (skipn (length b))) in E as E2. rewrite LB in E1 at 2. rewrite LB in E2 at 2. rewrite !firstn_app, !firstn_all, !Nat.sub_diag in E1. rewrite !skipn_app, !skipn_all, !Nat.sub_diag in E2. cbn [firstn skipn app] in *. rewrite !app_nil_r in E1. auto. }
  destruct EB as [-> EB]. f_equal. eapply IH; eauto.
Qed.
Lemma holds_val_inj f f' b : length f = length f' -> holds f b -> holds f' b -> f = f'.
Proof. intros L A B. rewrite <- (holds_bits _ _ A), <- (holds_bits _ _ B), L. auto. Qed.
Lemma holds_all_inj fs fs' bs : map (@length bool) fs = map (@length bool) fs' -> Forall2 holds fs bs -> Forall2 holds fs' bs -> fs = fs'.
Proof.
  intros M F. revert fs' M. induction F as [|f b fs bs HF F IH]; intros fs' M F'; inversion F' as [|f' b' fs2 bs2 HF' F2]; subst; auto. cbn [map] in M. injection M as M1 M2. f_equal; [eapply holds_val_inj; eauto|auto].
Qed.
Lemma transform_ok ws mask k : length k = key_bytes ws -> (forall m, mask = Some m -> length m = key_bytes ws) -> exists q, transform (new_shadow ws mask) k = Some q /\ length q = key_bytes ws.
Proof.
  intros L M. unfold transform. cbn [new_shadow sh_mask]. destruct mask as [m|]; [|eauto]. rewrite (proj2 (Nat.leb_le _ _)) by (rewrite (M m eq_refl); lia). eexists. split; [reflexivity|]. rewrite map2_length; auto. rewrite (M m); auto.
Qed.
Lemma transform_agrees ws mask a b : bytes_ok a -> bytes_ok b -> length a = key_bytes ws -> length b = key_bytes ws -> (forall m, mask = Some m -> length m = key_bytes ws) ->
  (transform (new_shadow ws mask) a = transform (new_shadow ws mask) b <-> agrees mask a b).
Proof.
  intros BA BB LA LB M. unfold transform, agrees. cbn [new_shadow sh_mask]. destruct mask as [m|].
  - rewrite !(proj2 (Nat.leb_le _ _)) by (rewrite (M m eq_refl); lia). rewrite <- masked_eq; auto; [|rewrite (M m); auto|rewrite (M m); auto]. split; congruence.
  - split; congruence.
Qed.
