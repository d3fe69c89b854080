(** Proofs for C74. *)
From Coq Require Import List Arith NArith ZArith Bool Lia.
From Verif Require Import Base Bits EntryListSpec Bytes DataModel PhvModel FieldSpec FieldProps PiAdModel PiAdSpec.
Import ListNotations.
Close Scope Z_scope.

(** ** Bytes *)
Lemma num_be p : num p = import_bytes p.
Proof.
  unfold num, import_bytes. induction p as [|b p IH] using rev_ind. { reflexivity. }
  rewrite fold_left_app. cbn [fold_left]. rewrite IH, be_val_app. cbn [length]. change (256 ^ N.of_nat 1)%N with 256%N.
  replace (be_val [b]) with b by (unfold be_val; cbn; lia). lia.
Qed.
Lemma fits_bytes w p : fits w p -> nbytes_of w = length p /\ 0 < length p.
Proof.
  intros (H & L & _). unfold nbytes_of. split; [|lia]. set (n := length p) in *. clearbody n.
  symmetry. apply Nat.div_unique with (w + 7 - 8 * n); lia.
Qed.
Lemma build_ok ws : forall ps rest, Forall2 fits ws ps -> build ws (concat ps ++ rest) = Some (map num ps).
Proof.
  induction ws as [|w ws IH]; intros ps rest H; inversion H; subst; clear H; cbn [build map]; auto.
  destruct (fits_bytes _ _ H2) as [E _]. rewrite E. cbv zeta. cbn [concat]. rewrite <- app_assoc.
  replace (length (y ++ concat l' ++ rest) <? length y) with false by (symmetry; apply Nat.ltb_ge; rewrite app_length; lia).
  rewrite skipn_app, skipn_all, Nat.sub_diag. cbn [skipn app]. rewrite IH by auto. cbn [bind].
  rewrite firstn_app, firstn_all, Nat.sub_diag. cbn [firstn]. rewrite app_nil_r, num_be. reflexivity.
Qed.
Lemma strip p s : Forall (fun b => (b < 256)%N) p -> 0 < length p -> get_string (import_bytes p) = Some s ->
  length s <= length p /\ repeat 0%N (length p - length s) ++ s = p.
Proof.
  intros Hp Lp H. destruct (C24_get_string (import_bytes p)) as (l & E & Hl & V & NE & HD). rewrite H in E. inversion E; subst l. clear E.
  assert (P : Z.abs (import_bytes p) = import_bytes p) by (apply Z.abs_eq; unfold import_bytes; lia). rewrite P in *.
  assert (L : length s <= length p).
  { destruct (Nat.le_gt_cases (length s) (length p)) as [|G]; auto. exfalso.
    destruct (Z.eq_dec (import_bytes p) 0) as [Z0|NZ].
    - rewrite Z0 in H. vm_compute in H. inversion H; subst. cbn in G. lia.
    - specialize (HD NZ). destruct s as [|c s]; [congruence|]. cbn [hd] in HD. cbn [length] in G.
      pose proof (be_val_app [c] s) as B. cbn [app] in B. replace (be_val [c]) with c in B by (unfold be_val; cbn; lia).
      assert (V' : be_val (c :: s) = be_val p) by (unfold import_bytes in V; lia).
      pose proof (be_val_lt2 p Hp) as U. rewrite <- pow256 in U.
      assert (256 ^ N.of_nat (length p) <= 256 ^ N.of_nat (length s))%N by (apply N.pow_le_mono_r; lia). nia. }
  split; auto. apply be_val_inj; auto.
  - apply bytes_ok_app. split; [apply bytes_ok_repeat; reflexivity|exact Hl].
  - rewrite app_length, repeat_length. lia.
  - rewrite be_val_app, be_val_zeros. unfold import_bytes in V. lia.
Qed.
Lemma dump_params_ok ws : forall ps, Forall2 fits ws ps -> dump_params ws (map num ps) = Some (concat ps).
Proof.
  induction ws as [|w ws IH]; intros ps H; inversion H; subst; clear H; cbn [dump_params map]; auto.
  destruct (fits_bytes _ _ H2) as [E G]. rewrite E. cbv zeta. rewrite num_be. destruct (C24_get_string (import_bytes y)) as (s & Es & _). rewrite Es. cbn [bind].
  destruct H2 as (_ & _ & Hb). destruct (strip y s Hb G Es) as [L S].
  destruct (Nat.ltb_spec (length y) (length s)); [lia|]. rewrite IH by auto. cbn [bind concat]. rewrite app_assoc, S. reflexivity.
Qed.

(** ** Digits *)
Definition bval (b : N) (l : list N) : N := fold_left (fun v d => b * v + d)%N l 0%N.
Lemma digs_ok b : (2 <= b)%N -> forall f v, (v < 2 ^ N.of_nat f)%N -> bval b (digs (S f) b v) = v /\ Forall (fun d => (d < b)%N) (digs (S f) b v) /\ digs (S f) b v <> [].
Proof.
  intros Hb. induction f as [|f IH]; intros v Hv.
  - cbn in Hv. assert (v = 0)%N by lia. subst. cbn. destruct (N.ltb_spec 0 b); [|lia]. cbn. repeat split; auto; try discriminate; try lia.
  - cbn [digs]. destruct (N.ltb_spec v b) as [L|L].
    + unfold bval. cbn. split; [lia|]. split; [auto|discriminate].
    + assert (V : (v / b < 2 ^ N.of_nat f)%N).
      { apply N.div_lt_upper_bound; [lia|]. rewrite Nat2N.inj_succ, N.pow_succ_r' in Hv. assert (2 * 2 ^ N.of_nat f <= b * 2 ^ N.of_nat f)%N by (apply N.mul_le_mono_r; auto). lia. }
      destruct (IH _ V) as (A & B & C). change (if (v / b <? b)%N then [(v / b)%N] else digs f b (v / b / b) ++ [((v / b) mod b)%N]) with (digs (S f) b (v / b)).
      repeat split.
      * unfold bval in *. rewrite fold_left_app. rewrite A. cbn. pose proof (N.div_mod v b ltac:(lia)). lia.
      * apply Forall_app. split; auto. constructor; auto. apply N.mod_lt. lia.
      * intros E. apply app_eq_nil in E. destruct E. discriminate.
Qed.
Lemma size_nat_bound v : (v < 2 ^ N.of_nat (N.size_nat v))%N.
Proof.
  destruct v as [|p]; [reflexivity|]. cbn [N.size_nat]. pose proof (N.size_gt (Npos p)) as H. cbn [N.size] in H.
  replace (N.of_nat (Pos.size_nat p)) with (Npos (Pos.size p)); [exact H|].
  clear. induction p; cbn [Pos.size Pos.size_nat]; rewrite ?Nat2N.inj_succ, <- ?IHp; auto; lia.
Qed.
Lemma digits_ok b v : (2 <= b)%N -> bval b (digits b v) = v /\ Forall (fun d => (d < b)%N) (digits b v) /\ digits b v <> [].
Proof. intros. apply digs_ok; auto. apply size_nat_bound. Qed.

Definition hexc (d : N) : N := if (d <? 10)%N then (48 + d)%N else (87 + d)%N.
Lemma hexval_map l : Forall (fun d => (d < 16)%N) l -> hexval (map hexc l) (Z.of_N (bval 16 l)).
Proof.
  induction l as [|d l IH] using rev_ind; intros H. { constructor. }
  apply Forall_app in H. destruct H as [H1 H2]. inversion H2; subst. unfold bval. rewrite fold_left_app, map_app. cbn [fold_left map].
  fold (bval 16 l). replace (Z.of_N (16 * bval 16 l + d)) with (16 * Z.of_N (bval 16 l) + Z.of_N d)%Z by lia. constructor; auto.
  rewrite <- digit_c2d. unfold hexc, char2digit. destruct (N.ltb_spec d 10).
  - destruct (N.leb_spec 48 (48 + d)); [|lia]. destruct (N.leb_spec (48 + d) 57); [|lia]. cbn [andb]. f_equal. lia.
  - destruct (N.leb_spec 48 (87 + d)); [|lia]. destruct (N.leb_spec (87 + d) 57); [lia|]. cbn [andb].
    destruct (N.leb_spec 65 (87 + d)); [|lia]. destruct (N.leb_spec (87 + d) 70); [lia|]. cbn [andb].
    destruct (N.leb_spec 97 (87 + d)); [|lia]. destruct (N.leb_spec (87 + d) 102); [|lia]. cbn [andb]. f_equal. lia.
Qed.
(** A word: not empty, no white space *)
Definition word (s : list N) : Prop := s <> [] /\ Forall (fun c => is_ws c = false) s.
Lemma hexc_facts d : (d < 16)%N -> is_ws (hexc d) = false /\ hexc d <> 45%N /\ hexc d <> 120%N.
Proof. intros H. assert (Hd : In d (map N.of_nat (seq 0 16))) by (apply in_map_iff; exists (N.to_nat d); split; [lia|apply in_seq; lia]).
  cbn in Hd. repeat (destruct Hd as [<-|Hd]; [vm_compute; repeat split; discriminate|]). destruct Hd. Qed.
Lemma hex_ok v : (0 <= v)%Z -> exists s, show_hex v = Some s /\ word s /\ set_hex s = Some v.
Proof.
  intros H. unfold show_hex. destruct (Z.ltb_spec v 0); [lia|]. destruct (digits_ok 16 (Z.to_N v) ltac:(discriminate)) as (A & B & C).
  exists (map hexc (digits 16 (Z.to_N v))). split; [reflexivity|]. set (l := digits 16 (Z.to_N v)) in *. clearbody l.
  assert (NE : map hexc l <> []) by (destruct l; [congruence|discriminate]). split.
  - split; auto. apply Forall_map. eapply Forall_impl; [|exact B]. intros d Hd. apply (hexc_facts d Hd).
  - destruct (C24_hexstring false [] (map hexc l)) as [G _]; auto.
    + left. split; auto. destruct l as [|d [|d' l]]; [congruence|cbn|cbn].
      * inversion B; subst. split; auto. apply (hexc_facts d). auto.
      * inversion B as [|? ? B1 B2]; subst. inversion B2 as [|? ? B3 B4]; subst. destruct (hexc_facts d B1) as (_ & Q1 & _). destruct (hexc_facts d' B3) as (_ & _ & Q2). split; auto. intros [_ X]. auto.
    + cbn [app] in G. rewrite (G _ (hexval_map l B)). f_equal. rewrite A. lia.
Qed.
Lemma dec_val_app l : forall acc m, Forall (fun d => (d < 10)%N) l -> dec_val acc (map (fun d => (48 + d)%N) l ++ m) = dec_val (fold_left (fun v d => 10 * v + d)%N l acc) m.
Proof.
  induction l as [|d l IH]; intros acc m H; cbn [map app dec_val fold_left]; auto. inversion H; subst.
  destruct (N.leb_spec 48 (48 + d)); [|lia]. destruct (N.leb_spec (48 + d) 57); [|lia]. cbn [andb]. rewrite IH by auto. do 2 f_equal. lia.
Qed.
Lemma dec_ok v : word (show_dec v) /\ dec_val 0 (show_dec v) = Some v /\ hd 0%N (show_dec v) <> 45%N.
Proof.
  unfold show_dec. destruct (digits_ok 10 v ltac:(discriminate)) as (A & B & C). set (l := digits 10 v) in *. clearbody l. repeat split.
  - destruct l; [congruence|discriminate].
  - apply Forall_map. eapply Forall_impl; [|exact B]. cbn beta. intros d Hd. unfold is_ws.
    destruct (N.eqb_spec (48 + d) 32); [lia|]. destruct (N.leb_spec (48 + d) 13); [lia|]. rewrite andb_false_r. reflexivity.
  - rewrite <- (app_nil_r (map _ l)), dec_val_app by auto. cbn [dec_val]. f_equal. exact A.
  - destruct l as [|d l]; cbn [map hd]; [discriminate|]. inversion B; subst. lia.
Qed.

(** ** Words *)
Definition blank (s : list N) : Prop := Forall (fun c => is_ws c = true) s.
Lemma skip_blank s l : blank s -> skip_ws (s ++ l) = skip_ws l.
Proof. induction 1; cbn; auto. rewrite H. auto. Qed.
Lemma take_word_ok w l : Forall (fun c => is_ws c = false) w -> take_word (w ++ nl :: l) = (w, nl :: l).
Proof. induction 1; cbn [app take_word]; auto. rewrite H, IHForall. reflexivity. Qed.
Lemma read_word_ok s w l : blank s -> word w -> read_word (s ++ w ++ nl :: l) = Some (w, nl :: l).
Proof.
  intros Hs [NE Hw]. unfold read_word. rewrite skip_blank by auto.
  assert (skip_ws (w ++ nl :: l) = w ++ nl :: l) as -> by (destruct w as [|c w]; [congruence|]; inversion Hw; subst; cbn; rewrite H1; auto).
  rewrite take_word_ok by auto. cbn [fst]. destruct w; [congruence|reflexivity].
Qed.
Lemma read_num_ok max s v l : blank s -> (v <= max)%N -> read_num max (s ++ show_dec v ++ nl :: l) = Some (Z.of_N v, nl :: l).
Proof.
  intros Hs Hv. destruct (dec_ok v) as (W & D & M). unfold read_num. rewrite read_word_ok by auto. cbn [bind fst snd].
  destruct (show_dec v) as [|c r] eqn:E; [destruct W; congruence|]. cbn [hd] in M. destruct (N.eqb_spec c 45); [congruence|].
  rewrite D. cbn [bind]. destruct (N.leb_spec v max); [reflexivity|lia].
Qed.
Lemma show_data_ok ds : Forall (fun d => 0 <= d)%Z ds -> exists t, show_data ds = Some t /\
  forall s rest, blank s -> exists s', blank s' /\ read_data (length ds) (s ++ t ++ rest) = Some (ds, s' ++ rest).
Proof.
  induction 1 as [|d ds Hd _ IH]; cbn [show_data length read_data]. { exists []. split; auto. intros s rest Hs. exists s. auto. }
  destruct (hex_ok d Hd) as (w & -> & W & SH). cbn [bind]. destruct IH as (t & -> & R). cbn [bind]. eexists; split; [reflexivity|]. intros s rest Hs.
  rewrite <- app_assoc. cbn [app]. rewrite read_word_ok by auto. cbn [bind fst snd]. rewrite SH. cbn [bind].
  destruct (R [nl] rest) as (s' & B & E); [repeat constructor|]. cbn [app] in E. rewrite E. cbn [bind fst snd]. eauto.
Qed.
Lemma entry_ok known e : savable known e -> exists t, save_entry e = Some t /\
  forall s rest, blank s -> exists s', blank s' /\ load_entry known (mk_ae None []) (s ++ t ++ rest) = Some (e, s' ++ rest).
Proof.
  destruct e as [[id|] ds]; unfold savable, save_entry; cbn [ae_id ae_data].
  - intros (H1 & H2 & H3 & H4). destruct (show_data_ok ds H4) as (t & -> & R). cbn [bind]. eexists; split; [reflexivity|]. intros s rest Hs.
    unfold load_entry. rewrite <- !app_assoc. cbn [app]. rewrite <- !app_assoc. cbn [app]. rewrite read_num_ok by (auto; lia). cbn [bind fst snd].
    destruct (Z.eqb_spec (Z.of_N id) (-1)); [lia|]. destruct (Z.ltb_spec (Z.of_N id) 0); [lia|]. cbv zeta. rewrite N2Z.id, H2.
    change (nl :: show_dec (N.of_nat (length ds)) ++ nl :: t ++ rest) with ([nl] ++ show_dec (N.of_nat (length ds)) ++ nl :: t ++ rest).
    rewrite read_num_ok; [|repeat constructor|lia]. cbn [bind fst snd]. rewrite nat_N_Z, Nat2Z.id.
    destruct (R [nl] rest) as (s' & B & E); [repeat constructor|]. cbn [app] in E. rewrite E. cbn [bind fst snd ae_data app]. eauto.
  - intros ->. eexists; split; [reflexivity|]. intros s rest Hs. exists [nl]. split; [repeat constructor|]. unfold load_entry, read_num.
    change ([45; 49; nl]%N ++ rest) with ([45; 49]%N ++ nl :: rest). rewrite read_word_ok; [|auto|split; [discriminate|repeat constructor]]. reflexivity.
Qed.
Lemma save_all_ok known es : Forall (savable known) es -> exists t, save_all es = Some t /\
  forall s rest, blank s -> exists s', blank s' /\ load_all known (length es) (s ++ t ++ rest) = Some (es, s' ++ rest).
Proof.
  induction 1 as [|e es He _ IH]; cbn [save_all length load_all]. { exists []. split; auto. intros s rest Hs. exists s. auto. }
  destruct (entry_ok _ _ He) as (t1 & -> & R1). cbn [bind]. destruct IH as (t & -> & R). cbn [bind]. eexists; split; [reflexivity|]. intros s rest Hs.
  destruct (R1 s (t ++ rest) Hs) as (s1 & B1 & E1). rewrite <- app_assoc, E1. cbn [bind fst snd].
  destruct (R s1 rest B1) as (s' & B & E). rewrite E. cbn [bind fst snd]. eauto.
Qed.
