(** What packets show *)
From Coq Require Import List Arith NArith Bool Lia.
From Verif Require Import PacketModel PacketSpec PacketProofs.
Import ListNotations.

Section Shows.
Variable sg : list N -> N.
Notation step := (step sg). Notation run := (run sg). Notation after := (after sg).

Definition matches (a : att) (p : packet) : Prop := length (a_regs a) = 4 /\ forall k, reads a k = p k.
Definition rel (s : st) (W : world) : Prop := forall v,
  match look (vars s) v, W v with
  | Some x, Full p => v_phv x <> None /\ matches (v_att x) p
  | Some _, Empty => True
  | None, Absent => True
  | _, _ => False
  end.

Lemma rel_put s s' W v x q : rel s W -> vars s' = put (vars s) v x ->
  match q with Full p => v_phv x <> None /\ matches (v_att x) p | Empty => True | Absent => False end -> rel s' (put_ W v q).
Proof.
  intros R E Q u. rewrite E, look_put. unfold put_. destruct (u =? v); [destruct q; auto|]. apply R.
Qed.
Lemma some_inj (l l' : list N) : map Some l = map Some l' -> l = l'.
Proof. revert l'. induction l as [|x l IH]; intros [|y l'] E; cbn in E; try discriminate; auto. injection E as -> E. f_equal; auto. Qed.
Lemma bytes_back l : flat_map (fun o : option N => match o with Some b => [b] | None => [] end) (map Some l) = l.
Proof. induction l as [|x l IH]; cbn; f_equal; auto. Qed.
Lemma vars_get s c s' x : get_phv s c = Some (s', x) -> vars s' = vars s.
Proof. unfold get_phv. destruct (nth_error _ _) as [p|]; [|discriminate]. destruct (free p); intros E; injection E as <- <-; reflexivity. Qed.
Lemma vars_release s c x s' : release s c x = Some s' -> vars s' = vars s.
Proof. unfold release. destruct (nth_error _ _) as [p|]; [|discriminate]. intros E; injection E as <-; reflexivity. Qed.

Lemma arrival_ok c port pid cid ilen bs cap now c' p' i' l' b' k' :
  c' = nn c -> p' = [Some port] -> i' = [Some pid] -> l' = [Some ilen] -> b' = map Some bs -> k' = nn cap ->
  matches (mkAt c port 0 pid cid ilen false (sg bs) bs cap 0 None now (repeat None 4) None None false) (arrival sg c' p' i' [Some cid] l' b' k' now).
Proof.
  intros -> -> -> -> -> ->. split; [reflexivity|]. intros k. destruct k; try reflexivity.
  - cbn [reads a_sig arrival]. rewrite bytes_back. reflexivity.
  - cbn [reads a_regs arrival repeat]. destruct i as [|[|[|[|i]]]]; try reflexivity. cbn. destruct i; reflexivity.
Qed.
Lemma construct_rel s W v c port pid cid ilen bs cap now s' q : rel s W -> construct sg s v c port pid cid ilen bs cap now = Some s' ->
  (match q with Full p => matches (mkAt c port 0 pid cid ilen false (sg bs) bs cap 0 None now (repeat None 4) None None false) p | Empty => True | Absent => False end) ->
  rel s' (put_ W v q).
Proof.
  intros R E Q. unfold construct in E. destruct (look (vars s) v); [discriminate|]. destruct (get_phv s c) as [[s1 x]|] eqn:Eg; [|discriminate].
  injection E as <-. eapply rel_put; [exact R|cbn [with_var vars]; rewrite (vars_get _ _ _ _ Eg); reflexivity|]. destruct q; auto. split; [discriminate|exact Q].
Qed.
Lemma key_eqb_spec a b : reflect (a = b) (key_eqb a b).
Proof.
  destruct a, b; cbn; try (constructor; congruence). destruct (Nat.eqb_spec i i0); constructor; congruence.
Qed.
Lemma sets_ok a p k v a' : matches a p -> length (a_regs a') = 4 -> reads a' k = v -> (forall k', k' <> k -> reads a' k' = reads a k') -> matches a' (sets p k v).
Proof.
  intros [L M] L' E N. split; [exact L'|]. intros k'. unfold sets. destruct (key_eqb_spec k' k) as [->|Ne]; [exact E|]. rewrite N by exact Ne. apply M.
Qed.
Lemma reg_other re i j (e : option N) : j <> i -> nth_error (set_nth re i e) j = @nth_error (option N) re j.
Proof. intros N. rewrite nth_set. destruct (Nat.eqb_spec j i); [contradiction|reflexivity]. Qed.
Lemma setter_ok a p x a' : matches a p -> setter a x = Some a' -> matches a' (setting p x).
Proof.
  intros M E. pose proof M as [L R]. destruct a as [cx po ep pi ci il ex si da ca ps tr ts re ei er ck]. cbn [a_regs] in L. destruct x; cbn [setter] in E.
  1-5, 8-12: injection E as <-; eapply sets_ok; [exact M|exact L|reflexivity|intros [] N; try reflexivity; congruence].
  - injection E as <-. eapply sets_ok; [exact M|exact L| |intros [] N; try reflexivity; congruence].
    rewrite <- (R KTrunc). cbn [reads a_trunc]. destruct tr as [m|]; cbn [least nn]; [rewrite Nnat.Nat2N.id|]; reflexivity.
  - destruct (i <? length re) eqn:Li; [|discriminate]. injection E as <-. apply Nat.ltb_lt in Li.
    eapply sets_ok; [exact M|cbn [a_regs]; rewrite len_set; exact L| |].
    + cbn [reads a_regs]. rewrite nth_set, Nat.eqb_refl. destruct (nth_error re i) eqn:Q; [reflexivity|apply nth_error_None in Q; lia].
    + intros k N. destruct k as [| | | | | | | | | | | | |j| | |]; try reflexivity. cbn [reads a_regs]. rewrite reg_other by congruence. reflexivity.
  - destruct (_ <=? _); [|discriminate]. injection E as <-. eapply sets_ok; [exact M|exact L| |intros [] N; try reflexivity; congruence].
    rewrite <- (R KData). cbn [reads a_data]. rewrite map_app. reflexivity.
  - destruct (_ <=? _); [|discriminate]. injection E as <-. eapply sets_ok; [exact M|exact L| |intros [] N; try reflexivity; congruence].
    rewrite <- (R KData). cbn [reads a_data]. rewrite skipn_map. reflexivity.
Qed.
Lemma setter_phv s W v x a p a' : rel s W -> look (vars s) v = Some (mkVar a p) -> setter a x = Some a' ->
  rel (with_var s v (mkVar a' p)) (match W v with Full q => put_ W v (Full (setting q x)) | _ => W end).
Proof.
  intros R Ev E. pose proof (R v) as Rv. rewrite Ev in Rv. destruct (W v) as [| |q] eqn:Ew; [destruct Rv| |].
  - intros u. cbn [with_var vars]. rewrite look_put. destruct (Nat.eqb_spec u v); [subst; rewrite Ew; exact I|apply R].
  - destruct Rv as [P M]. eapply rel_put; [exact R|reflexivity|]. split; [exact P|]. eapply setter_ok; eauto.
Qed.

Lemma moved_same a : rest a = (None, None, None, false) -> moved a = a.
Proof. destruct a; unfold rest; cbn. intros E; inversion E; subst. reflexivity. Qed.
Lemma assigned_same b a : rest b = rest a -> assigned b a = a.
Proof. destruct a, b; unfold rest; cbn. intros E; inversion E; subst. reflexivity. Qed.

Lemma step_rel s W o s' x : rel s W -> plain_move s o -> step s o = Some (s', x) -> may_show W o x /\ rel s' (after W o).
Proof.
  intros R G E. destruct o; cbn [PacketModel.step PacketSpec.after may_show] in *.
  - destruct (_ <=? _); [|discriminate]. destruct (construct _ _ _ _ _ _ _ _ _ _ _) eqn:Q; [|discriminate]. injection E as <- <-. split; [reflexivity|].
    eapply construct_rel; eauto. apply arrival_ok; reflexivity.
  - destruct (destroy s v) as [s1|] eqn:Q; [|discriminate]. injection E as <- <-. split; [reflexivity|].
    assert (V : vars s1 = drop (vars s) v).
    { unfold destroy in Q. destruct (look (vars s) v) as [[a [y|]]|]; [| |discriminate].
      - destruct (release _ _ _) eqn:Er; [|discriminate]. injection Q as <-. exact (vars_release _ _ _ _ Er).
      - injection Q as <-. reflexivity. }
    intros u. rewrite V, look_drop. unfold put_. destruct (u =? v); [exact I|apply R].
  - destruct (look (vars s) v) as [[a y]|] eqn:Ev; [|discriminate]. destruct (clone _ _ _ _ _ _ _) eqn:Q; [|discriminate]. injection E as <- <-. split; [reflexivity|].
    unfold clone in Q. rewrite Ev in Q. destruct y; [|discriminate]. eapply construct_rel; eauto. pose proof (R v) as Rv. rewrite Ev in Rv.
    destruct (W v) as [| |q]; auto. destruct Rv as [_ [_ M]]. cbn [v_att] in M. apply arrival_ok; rewrite <- M; reflexivity.
  - destruct (clone _ _ _ _ _ _ _) eqn:Q; [|discriminate]. injection E as <- <-. split; [reflexivity|].
    unfold clone in Q. destruct (look (vars s) v) as [[a [y|]]|] eqn:Ev; try discriminate. eapply construct_rel; eauto. pose proof (R v) as Rv. rewrite Ev in Rv.
    destruct (W v) as [| |q]; auto. destruct Rv as [_ [_ M]]. cbn [v_att] in M. apply arrival_ok; try (rewrite <- M); reflexivity.
  - destruct (move s v w) as [s1|] eqn:Q; [|discriminate]. injection E as <- <-. split; [reflexivity|]. unfold move in Q.
    destruct (look (vars s) v) as [[a y]|] eqn:Ev; [|discriminate]. destruct (look (vars s) w) eqn:Ew; [discriminate|]. injection Q as <-.
    cbn [plain_move] in G. rewrite (moved_same a (G a y Ev)).
    pose proof (R v) as Rv. rewrite Ev in Rv. intros u. cbn [with_var vars]. rewrite !look_put. unfold put_.
    destruct (Nat.eqb_spec u w); [subst u; destruct (Nat.eqb_spec w v); [subst; congruence|]; destruct (W v); auto|].
    destruct (Nat.eqb_spec u v); [exact I|apply R].
  - destruct (assign s w v) as [s1|] eqn:Q; [|discriminate]. injection E as <- <-. split; [reflexivity|]. unfold assign in Q.
    destruct (look (vars s) w) as [[b z]|] eqn:Ew; [|discriminate]. destruct (look (vars s) v) as [[a y]|] eqn:Ev; [|discriminate].
    destruct (Nat.eqb_spec w v); [injection Q as <-; exact R|]. injection Q as <-.
    cbn [plain_move] in G. rewrite (assigned_same b a) by (eapply G; eauto).
    pose proof (R v) as Rv. rewrite Ev in Rv. intros u. cbn [with_var vars]. rewrite !look_put. unfold put_.
    destruct (Nat.eqb_spec u w); [subst u; destruct (Nat.eqb_spec w v); [contradiction|]; destruct (W v); auto|].
    destruct (Nat.eqb_spec u v); [exact I|apply R].
  - destruct (change_context s v c) as [s1|] eqn:Q; [|discriminate]. injection E as <- <-. split; [reflexivity|]. unfold change_context in Q.
    destruct (look (vars s) v) as [[a y]|] eqn:Ev; [|discriminate]. pose proof (R v) as Rv. rewrite Ev in Rv.
    destruct (Nat.eqb_spec (a_cxt a) c) as [Ec|Ec].
    + injection Q as <-. destruct (W v) as [| |q] eqn:Wv; auto. destruct Rv as [P [L M]]. intros u. unfold put_. destruct (Nat.eqb_spec u v); [|apply R].
      subst u. rewrite Ev. split; [exact P|]. apply sets_ok with (a := a); auto; [split; assumption|cbn; rewrite Ec; reflexivity].
    + destruct y as [y|]; [|discriminate]. destruct (release s (a_cxt a) y) as [s2|] eqn:Er; [|discriminate].
      destruct (get_phv s2 c) as [[s3 z]|] eqn:Eg; [|discriminate]. injection Q as <-.
      assert (V : vars s3 = vars s) by (rewrite (vars_get _ _ _ _ Eg); exact (vars_release _ _ _ _ Er)).
      destruct (W v) as [| |q] eqn:Wv; [destruct Rv| |].
      * intros u. cbn [with_var vars]. rewrite V, look_put. destruct (Nat.eqb_spec u v); [subst; rewrite Wv; exact I|apply R].
      * destruct Rv as [P [L M]]. eapply rel_put; [exact R|cbn [with_var vars]; rewrite V; reflexivity|]. split; [discriminate|].
        apply sets_ok with (a := a); [split; assumption|exact L|reflexivity|intros [] N; try reflexivity; congruence].
  - destruct (look (vars s) v) as [[a p]|] eqn:Ev; [|discriminate]. destruct (setter a s0) as [a'|] eqn:Q; [|discriminate]. injection E as <- <-.
    split; [reflexivity|]. eapply setter_phv; eauto.
  - destruct (look (vars s) v) as [[a p]|] eqn:Ev; [|discriminate]. injection E as <- <-. split; [|exact R].
    pose proof (R v) as Rv. rewrite Ev in Rv. destruct (W v) as [| |q]; auto. destruct Rv as [_ [_ M]]. cbn [v_att] in M.
    exists a, (data_size a). split; [reflexivity|]. split; [exact M|]. rewrite <- !M. unfold data_size. cbn [reads]. destruct (a_trunc a); cbn; rewrite map_length; [rewrite Nnat.Nat2N.id|]; reflexivity.
Qed.
Lemma run_rel : forall os s W s' xs, rel s W -> along sg plain_move s os -> run s os = Some (s', xs) -> follows sg W os xs.
Proof.
  induction os as [|o r IH]; intros s W s' xs R G E; cbn [PacketModel.run] in E; [injection E as <- <-; exact I|].
  destruct G as [G1 G2]. destruct (step s o) as [[s1 x]|] eqn:Es; [|discriminate]. destruct (run s1 r) as [[s2 ys]|] eqn:Er; [|discriminate]. injection E as <- <-.
  destruct (step_rel _ _ _ _ _ R G1 Es) as [A B]. split; [exact A|]. eapply IH; eauto.
Qed.

(** ** Nothing fails *)
Definition sound (n : nat) (s : st) : Prop := length (pools s) = n /\ forall v x, look (vars s) v = Some x -> a_cxt (v_att x) < n.
Lemma sound_put n s s' v x : sound n s -> vars s' = put (vars s) v x -> length (pools s') = length (pools s) -> a_cxt (v_att x) < n -> sound n s'.
Proof.
  intros [A B] V P X. split; [congruence|]. intros u y. rewrite V, look_put. destruct (u =? v); [intros E; injection E as <-; exact X|apply B].
Qed.
Lemma get_some n s c : sound n s -> c < n -> exists s' x, get_phv s c = Some (s', x) /\ vars s' = vars s /\ length (pools s') = n.
Proof.
  intros [A B] L. unfold get_phv. destruct (nth_error (pools s) c) as [p|] eqn:E; [|apply nth_error_None in E; lia].
  destruct (free p); eexists; eexists; (split; [reflexivity|]); cbn; rewrite len_set; auto.
Qed.
Lemma release_some n s c x : length (pools s) = n -> c < n -> exists s', release s c x = Some s' /\ vars s' = vars s /\ length (pools s') = n.
Proof.
  intros A L. unfold release. destruct (nth_error (pools s) c) as [p|] eqn:E; [|apply nth_error_None in E; lia].
  eexists; (split; [reflexivity|]); cbn; rewrite len_set; auto.
Qed.
Lemma construct_some n s v c port pid cid ilen bs cap now : sound n s -> c < n -> look (vars s) v = None ->
  exists s', construct sg s v c port pid cid ilen bs cap now = Some s' /\ sound n s'.
Proof.
  intros S L E. unfold construct. rewrite E. destruct (get_some n s c S L) as (s' & x & -> & V & P). eexists. split; [reflexivity|].
  eapply sound_put; [exact S|cbn [with_var vars]; rewrite V; reflexivity|cbn; destruct S; congruence|exact L].
Qed.
Lemma absent s W v : rel s W -> (W v = Absent <-> look (vars s) v = None).
Proof. intros R. specialize (R v). destruct (look (vars s) v), (W v); split; try destruct R; congruence. Qed.
Lemma full_look s W v p : rel s W -> W v = Full p -> exists a x, look (vars s) v = Some (mkVar a (Some x)) /\ matches a p.
Proof.
  intros R E. specialize (R v). rewrite E in R. destruct (look (vars s) v) as [[a [x|]]|]; cbn in R; try tauto.
  exists a, x. tauto.
Qed.
Lemma num_nn k : num (nn k) = k.
Proof. unfold num, nn. apply Nnat.Nat2N.id. Qed.
Lemma setter_some a p x : matches a p -> (match x with
      | SReg i _ => i < 4 | SPrepend bs => length (p KData) + length bs <= num (p KCap) | SRemove k => num (p KPsize) + k <= length (p KData) | _ => True end) ->
  exists a', setter a x = Some a' /\ a_cxt a' = a_cxt a.
Proof.
  intros [L M] Q. destruct a as [cx po ep pi ci il ex si da ca ps tr ts re ei er ck]; destruct x; cbn [setter a_regs] in *; try (eexists; split; reflexivity).
  - apply Nat.ltb_lt in Q. rewrite L, Q. eexists; split; reflexivity.
  - rewrite <- !M in Q. cbn [reads a_data a_cap] in Q. rewrite map_length, num_nn in Q. apply Nat.leb_le in Q. rewrite Q. eexists; split; reflexivity.
  - rewrite <- !M in Q. cbn [reads a_data a_psize] in Q. rewrite map_length, num_nn in Q. apply Nat.leb_le in Q. rewrite Q. eexists; split; reflexivity.
Qed.
Lemma step_some n s W o : rel s W -> sound n s -> legal n W o -> exists s' x, step s o = Some (s', x) /\ sound n s'.
Proof.
  intros R S L. pose proof S as [SP SV]. destruct o; cbn [legal PacketModel.step] in *.
  - destruct L as (A & B & C). apply Nat.leb_le in C. rewrite C. apply (absent _ _ _ R) in A.
    destruct (construct_some n s v c port pid cid ilen bs cap now S B A) as (s' & -> & S'). eauto.
  - assert (E : look (vars s) v <> None) by (intros E; apply (absent _ _ _ R) in E; contradiction). unfold destroy.
    destruct (look (vars s) v) as [[a [x|]]|] eqn:Ev; [| |contradiction].
    + set (s1 := mkSt (drop (vars s) v) (pools s) (next s) (a_pid a :: removed s)).
      destruct (release_some n s1 (a_cxt a) x SP (SV _ _ Ev)) as (s2 & -> & V & P). eexists. eexists. split; [reflexivity|].
      split; [exact P|]. intros u y. rewrite V. subst s1. cbn [vars]. rewrite look_drop. destruct (u =? v); [discriminate|apply SV].
    + eexists. eexists. split; [reflexivity|]. split; [exact SP|]. intros u y. cbn [vars]. rewrite look_drop. destruct (u =? v); [discriminate|apply SV].
  - destruct L as ((p & F) & A). destruct (full_look _ _ _ _ R F) as (a & x & E & _). rewrite E. unfold clone. rewrite E. apply (absent _ _ _ R) in A.
    pose proof (SV _ _ E) as Lc. cbn in Lc. destruct (construct_some n s w (a_cxt a) (a_port a) (a_pid a) cid (a_ilen a) (a_data a) (a_cap a) now S Lc A) as (s' & -> & S'). eauto.
  - destruct L as ((p & F) & A & Lc). destruct (full_look _ _ _ _ R F) as (a & x & E & _). unfold clone. rewrite E. apply (absent _ _ _ R) in A.
    destruct (construct_some n s w c (a_port a) (a_pid a) cid (a_ilen a) (a_data a) (a_cap a) now S Lc A) as (s' & -> & S'). eauto.
  - destruct L as (A & B). apply (absent _ _ _ R) in B. assert (E : look (vars s) v <> None) by (intros E; apply (absent _ _ _ R) in E; contradiction).
    unfold move. destruct (look (vars s) v) as [[a x]|] eqn:Ev; [|contradiction]. rewrite B. eexists. eexists. split; [reflexivity|].
    eapply sound_put; [eapply (sound_put n s (with_var s v (mkVar a None))); [exact S|reflexivity|reflexivity|exact (SV _ _ Ev)]|reflexivity|reflexivity|exact (SV _ _ Ev)].
  - destruct L as (A & B). assert (E : look (vars s) v <> None) by (intros E; apply (absent _ _ _ R) in E; contradiction).
    assert (E' : look (vars s) w <> None) by (intros E'; apply (absent _ _ _ R) in E'; contradiction).
    unfold assign. destruct (look (vars s) w) as [[b y]|] eqn:Ew; [|contradiction]. destruct (look (vars s) v) as [[a x]|] eqn:Ev; [|contradiction].
    destruct (w =? v); [eauto|]. eexists. eexists. split; [reflexivity|].
    match goal with |- sound n (with_var (with_var s v ?z) w _) => assert (S1 : sound n (with_var s v z)) end.
    { eapply sound_put; [exact S|reflexivity|reflexivity|exact (SV _ _ Ev)]. }
    eapply sound_put; [exact S1|reflexivity|reflexivity|exact (SV _ _ Ev)].
  - destruct L as ((p & F) & Lc). destruct (full_look _ _ _ _ R F) as (a & x & E & _). unfold change_context. rewrite E. destruct (a_cxt a =? c); [eauto|].
    destruct (release_some n s (a_cxt a) x SP (SV _ _ E)) as (s1 & -> & V & P). assert (S1 : sound n s1) by (split; [exact P|intros u y; rewrite V; apply SV]).
    destruct (get_some n s1 c S1 Lc) as (s2 & y & -> & V2 & P2). eexists. eexists. split; [reflexivity|].
    eapply sound_put; [exact S1|cbn [with_var vars]; rewrite V2; reflexivity|cbn; congruence|exact Lc].
  - destruct L as (p & F & Q). destruct (full_look _ _ _ _ R F) as (a & x & E & M). rewrite E. destruct (setter_some a p s0 M Q) as (a' & -> & C).
    eexists. eexists. split; [reflexivity|]. eapply sound_put; [exact S|reflexivity|reflexivity|]. cbn. rewrite C. exact (SV _ _ E).
  - assert (E : look (vars s) v <> None) by (intros E; apply (absent _ _ _ R) in E; contradiction). destruct (look (vars s) v) as [[a x]|]; [eauto|contradiction].
Qed.
Lemma run_some n : forall os s W, rel s W -> sound n s -> along sg plain_move s os -> all_legal sg n W os -> run s os <> None.
Proof.
  induction os as [|o r IH]; intros s W R S G L; [discriminate|]. destruct L as [L1 L2]. destruct G as [G1 G2]. cbn [PacketModel.run].
  destruct (step_some n s W o R S L1) as (s1 & x & E & S1). rewrite E in *. destruct (step_rel _ _ _ _ _ R G1 E) as [_ R1].
  specialize (IH s1 _ R1 S1 G2 L2). destruct (run s1 r) as [[s2 ys]|]; [discriminate|contradiction].
Qed.
End Shows.
