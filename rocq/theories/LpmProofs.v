From Coq Require Import List Arith NArith Bool Lia Sorted.
From Verif Require Import Base Bits SMap LpmModel LpmSpec.
Import ListNotations.

Section Proofs.
Context {V : Type}.
Notation node := (node V).

(** ** Orders *)
Lemma N_irrefl a : N.ltb a a = false. Proof. apply N.ltb_irrefl. Qed.
Lemma N_trans a b c : N.ltb a b = true -> N.ltb b c = true -> N.ltb a c = true.
Proof. rewrite !N.ltb_lt. lia. Qed.
Lemma N_total a b : N.ltb a b = false -> N.ltb b a = false -> a = b.
Proof. rewrite !N.ltb_ge. lia. Qed.
Lemma pf_irrefl a : pf_ltb a a = false.
Proof. unfold pf_ltb. rewrite Nat.eqb_refl. apply N.ltb_irrefl. Qed.
Lemma pf_trans a b c : pf_ltb a b = true -> pf_ltb b c = true -> pf_ltb a c = true.
Proof.
  unfold pf_ltb. destruct a as [a1 a2], b as [b1 b2], c as [c1 c2]; cbn [fst snd].
  destruct (Nat.eqb_spec a1 b1), (Nat.eqb_spec b1 c1), (Nat.eqb_spec a1 c1);
    rewrite ?N.ltb_lt, ?Nat.ltb_lt; lia.
Qed.
Lemma pf_total a b : pf_ltb a b = false -> pf_ltb b a = false -> a = b.
Proof.
  unfold pf_ltb. destruct a as [a1 a2], b as [b1 b2]; cbn [fst snd].
  destruct (Nat.eqb_spec a1 b1), (Nat.eqb_spec b1 a1);
    rewrite ?N.ltb_ge, ?Nat.ltb_ge; try lia.
  intros. f_equal; lia.
Qed.

(** ** Well-formed tries of [kw] remaining bytes *)
Definition pf_ok (maxlen : nat) (e : (nat * N) * V) : Prop :=
  fst (fst e) <= maxlen /\ (snd (fst e) < 2 ^ N.of_nat (fst (fst e)))%N.

Fixpoint wfn (kw : nat) (n : node) : Prop :=
  smap_ok N.ltb (branches n) /\ smap_ok pf_ltb (prefixes n) /\
  match kw with
  | O => branches n = [] /\ Forall (pf_ok 0) (prefixes n)
  | S k => Forall (pf_ok 7) (prefixes n) /\
           Forall (fun bc => node_is_empty (snd bc) = false /\ wfn k (snd bc)) (branches n)
  end.

Lemma wfn_empty kw : wfn kw empty_node.
Proof. destruct kw; cbn; repeat split; constructor. Qed.

Lemma wfn_br kw n : wfn kw n -> smap_ok N.ltb (branches n).
Proof. destruct kw; cbn; tauto. Qed.
Lemma wfn_pf kw n : wfn kw n -> smap_ok pf_ltb (prefixes n).
Proof. destruct kw; cbn; tauto. Qed.

Lemma wfn_child k n b c : wfn (S k) n -> get_next_node n b = Some c ->
  node_is_empty c = false /\ wfn k c.
Proof.
  intros (_ & _ & _ & H) E. apply (smap_find_In _ N_total) in E.
  rewrite Forall_forall in H. apply (H _ E).
Qed.

Lemma wfn_set_child k n b c : wfn (S k) n -> node_is_empty c = false -> wfn k c ->
  wfn (S k) (set_child n b c).
Proof.
  intros (A & B & C & D) E W. unfold set_child. cbn [wfn branches prefixes].
  repeat split; auto.
  - apply smap_put_ok; eauto using N_trans, N_total.
  - apply put_Forall; auto using N_total.
Qed.

Lemma wfn_delete_branch k n b : wfn (S k) n -> wfn (S k) (delete_branch n b).
Proof.
  intros (A & B & C & D). unfold delete_branch. cbn [wfn branches prefixes].
  repeat split; auto.
  - apply smap_del_ok; auto.
  - apply del_Forall; auto.
Qed.

Lemma wfn_insert_prefix kw n len key v : wfn kw n -> len <= 8 * kw -> len < 8 ->
  (key < 2 ^ N.of_nat len)%N -> wfn kw (node_insert_prefix n len key v).
Proof.
  intros W L1 L2 K. unfold node_insert_prefix.
  assert (SP : smap_ok pf_ltb (smap_put pf_ltb (len, key) v (prefixes n)))
    by (apply smap_put_ok; eauto using pf_trans, pf_total, wfn_pf).
  destruct kw; cbn [wfn branches prefixes] in *.
  - destruct W as (A & B & C & D). repeat split; auto.
    apply put_Forall; auto using pf_total. split; cbn; auto.
  - destruct W as (A & B & C & D). repeat split; auto.
    apply put_Forall; auto using pf_total. split; cbn; auto. lia.
Qed.

Lemma wfn_delete_prefix kw n len key n' : wfn kw n ->
  node_delete_prefix n len key = Some n' -> wfn kw n'.
Proof.
  intros W. unfold node_delete_prefix. destruct (node_get_prefix n len key); [|discriminate].
  intros E; injection E as <-.
  assert (SP : smap_ok pf_ltb (smap_del pf_ltb (len, key) (prefixes n)))
    by (apply smap_del_ok; eauto using wfn_pf).
  destruct kw; cbn [wfn branches prefixes] in *; destruct W as (A & B & C & D);
    repeat split; auto; apply del_Forall; auto.
Qed.

Lemma set_child_nonempty n b (c : node) : node_is_empty (set_child n b c) = false.
Proof.
  unfold set_child, node_is_empty.
  destruct (smap_put N.ltb b c (branches n)) eqn:E; auto.
  exfalso. eapply smap_put_nonempty; eauto.
Qed.

(** ** Valid prefixes *)
Definition vp (kw : nat) (bs : list N) (len : nat) : Prop :=
  bytes_ok bs /\ length bs = kw /\ len <= 8 * kw.

Lemma vp_tail k b r len : vp (S k) (b :: r) len -> 8 <= len -> vp k r (len - 8).
Proof. intros (A & B & C) H. inversion A; subst. cbn in B. repeat split; auto; lia. Qed.

Lemma vp_byte kw b r len : vp kw (b :: r) len -> (b < 256)%N.
Proof. intros (A & _). inversion A; auto. Qed.

Lemma last_key_lt kw bs len : vp kw bs len -> len < 8 -> (last_key bs len < 2 ^ N.of_nat len)%N.
Proof.
  intros H L. unfold last_key. destruct bs as [|b r]; cbn [hd].
  - rewrite N.shiftr_0_l. apply N.neq_0_lt_0, N.pow_nonzero; lia.
  - apply shiftr_lt; [|lia]. apply (vp_byte kw b r len H).
Qed.

Lemma pbits_low kw bs len : vp kw bs len -> len < 8 -> pbits bs len = bitsN len (last_key bs len).
Proof.
  intros (A & B & C) L. unfold pbits, last_key. destruct bs as [|b r]; cbn [hd].
  - cbn in B. assert (len = 0) as -> by lia. reflexivity.
  - apply firstn_bits_cons_low; lia.
Qed.

Lemma pbits_high b r len : 8 <= len -> pbits (b :: r) len = bitsN 8 b ++ pbits r (len - 8).
Proof. intros H. apply firstn_bits_cons; auto. Qed.

Lemma pbits_length kw bs len : vp kw bs len -> length (pbits bs len) = len.
Proof.
  intros (A & B & C). unfold pbits. rewrite firstn_length, bits_of_bytes_length. lia.
Qed.

Lemma pbits_low_eq kw bs len bs' len' : vp kw bs len -> vp kw bs' len' -> len < 8 -> len' < 8 ->
  (pbits bs len = pbits bs' len' <-> (len, last_key bs len) = (len', last_key bs' len')).
Proof.
  intros H H' L L'. split.
  - intros E. assert (len = len') as <-.
    { apply (f_equal (@length bool)) in E. rewrite !(pbits_length kw) in E; auto. }
    f_equal. rewrite !(pbits_low kw) in E by auto.
    apply (bitsN_inj len); auto; eapply last_key_lt; eauto.
  - intros E. injection E as <- E. rewrite !(pbits_low kw) by auto. rewrite E; auto.
Qed.

Lemma pbits_low_high_neq kw bs len bs' len' : vp kw bs len -> vp kw bs' len' -> len < 8 -> 8 <= len' ->
  pbits bs len <> pbits bs' len'.
Proof.
  intros H H' L L' E. apply (f_equal (@length bool)) in E. rewrite !(pbits_length kw) in E; auto. lia.
Qed.

Lemma pbits_high_eq k b r len b' r' len' :
  vp (S k) (b :: r) len -> vp (S k) (b' :: r') len' -> 8 <= len -> 8 <= len' ->
  (pbits (b :: r) len = pbits (b' :: r') len' <-> b = b' /\ pbits r (len - 8) = pbits r' (len' - 8)).
Proof.
  intros H H' L L'. rewrite !pbits_high by auto. split.
  - intros E. pose proof (f_equal (firstn 8) E) as E1. pose proof (f_equal (skipn 8) E) as E2.
    rewrite !firstn_app, !bitsN_length, Nat.sub_diag, !firstn_O, !app_nil_r, !firstn_all2 in E1
      by (rewrite bitsN_length; auto).
    rewrite !skipn_app, !bitsN_length, Nat.sub_diag, !skipn_O, !skipn_all2 in E2
      by (rewrite bitsN_length; auto).
    split; auto. apply (bitsN_inj 8); auto; eapply vp_byte; eauto.
  - intros [-> ->]. auto.
Qed.

(** ** Retrieval *)
Lemma get_prefix_empty len key : @node_get_prefix V empty_node len key = None.
Proof. reflexivity. Qed.

Lemma retrieve_nil (n : node) : trie_retrieve n [] 0 = Some (node_get_prefix n 0 (last_key [] 0)).
Proof. reflexivity. Qed.

Lemma retrieve_empty kw bs len : vp kw bs len -> @trie_retrieve V empty_node bs len = Some None.
Proof.
  intros H. destruct bs as [|b r]; cbn [trie_retrieve].
  - destruct H as (_ & <- & L). cbn in L. assert (len = 0) as -> by lia. reflexivity.
  - destruct (len <? 8); reflexivity.
Qed.

Lemma retrieve_total kw (n : node) bs len : vp kw bs len -> exists o, trie_retrieve n bs len = Some o.
Proof.
  revert n bs len. induction kw as [|k IH]; intros n bs len H.
  - destruct bs; [|destruct H as (_ & H & _); discriminate].
    destruct H as (_ & _ & L). assert (len = 0) as -> by lia. cbn. eauto.
  - destruct bs as [|b r]; [destruct H as (_ & H & _); discriminate|].
    cbn [trie_retrieve]. destruct (Nat.ltb_spec len 8); eauto.
    destruct (get_next_node n b); eauto. apply IH. eapply vp_tail; eauto.
Qed.

Lemma insert_spec : forall kw (n : node) bs len v, wfn kw n -> vp kw bs len ->
  exists n', trie_insert n bs len v = Some n' /\ wfn kw n' /\ node_is_empty n' = false /\
    forall bs' len', vp kw bs' len' ->
      (pbits bs len = pbits bs' len' -> trie_retrieve n' bs' len' = Some (Some v)) /\
      (pbits bs len <> pbits bs' len' -> trie_retrieve n' bs' len' = trie_retrieve n bs' len').
Proof.
  induction kw as [|k IH]; intros n bs len v W H.
  - destruct bs; [|destruct H as (_ & H & _); discriminate].
    destruct H as (Hb & _ & L). assert (len = 0) as -> by lia. cbn [trie_insert].
    eexists; split; [reflexivity|]. split; [apply wfn_insert_prefix; auto; cbn; lia|].
    split.
    { unfold node_insert_prefix, node_is_empty. destruct (branches n); auto.
      destruct (smap_put _ _ _ _) eqn:E; auto. exfalso; eapply smap_put_nonempty; eauto. }
    intros bs' len' H'. destruct bs'; [|destruct H' as (_ & H' & _); discriminate].
    destruct H' as (_ & _ & L'). assert (len' = 0) as -> by lia. cbn. split; [|congruence].
    intros _. unfold node_get_prefix. cbn [prefixes node_insert_prefix].
    rewrite smap_find_put_eq; auto using pf_irrefl.
  - destruct bs as [|b r]; [destruct H as (_ & H & _); discriminate|].
    cbn [trie_insert]. destruct (Nat.ltb_spec len 8) as [L|L].
    + eexists; split; [reflexivity|].
      split; [apply wfn_insert_prefix; auto; [lia|eapply last_key_lt; eauto]|].
      split.
      { unfold node_insert_prefix, node_is_empty. destruct (branches n); auto.
        destruct (smap_put _ _ _ _) eqn:E; auto. exfalso; eapply smap_put_nonempty; eauto. }
      intros bs' len' H'. destruct bs' as [|b' r']; [destruct H' as (_ & H' & _); discriminate|].
      cbn [trie_retrieve]. destruct (Nat.ltb_spec len' 8) as [L'|L'].
      * rewrite (pbits_low_eq (S k)) by auto. unfold node_get_prefix. cbn [prefixes node_insert_prefix].
        split; intros E.
        -- rewrite E, smap_find_put_eq; auto using pf_irrefl.
        -- rewrite smap_find_put_neq; eauto using pf_irrefl, pf_trans, pf_total, wfn_pf.
      * split; [intros E; exfalso; exact (pbits_low_high_neq (S k) _ _ _ _ H H' L L' E)|reflexivity].
    + pose proof (vp_tail _ _ _ _ H L) as Ht.
      set (child := match get_next_node n b with Some c => c | None => empty_node end).
      assert (Wc : wfn k child).
      { unfold child. destruct (get_next_node n b) eqn:E; [|apply wfn_empty].
        eapply wfn_child; eauto. }
      destruct (IH child r (len - 8) v Wc Ht) as (c' & E & Wc' & Nc' & G). rewrite E.
      eexists; split; [reflexivity|]. split; [apply wfn_set_child; auto|].
      split; [apply set_child_nonempty|].
      intros bs' len' H'. destruct bs' as [|b' r']; [destruct H' as (_ & H' & _); discriminate|].
      cbn [trie_retrieve]. destruct (Nat.ltb_spec len' 8) as [L'|L'].
      * split; [|reflexivity]. intros X. exfalso. exact (pbits_low_high_neq (S k) _ _ _ _ H' H L' L (eq_sym X)).
      * pose proof (vp_tail _ _ _ _ H' L') as Ht'.
        rewrite (pbits_high_eq k) by auto. unfold get_next_node, set_child. cbn [branches].
        destruct (N.eq_dec b b') as [<-|Nb].
        -- rewrite smap_find_put_eq by auto using N_irrefl.
           destruct (G r' (len' - 8) Ht') as [G1 G2]. split.
           ++ intros [_ X]. auto.
           ++ intros X. rewrite G2 by tauto. unfold child, get_next_node.
              destruct (smap_find N.ltb b (branches n)); auto. eapply retrieve_empty; eauto.
        -- rewrite smap_find_put_neq by eauto using N_irrefl, N_trans, N_total, wfn_br.
           split; [tauto|auto].
Qed.

Lemma delete_spec : forall kw (n : node) bs len, wfn kw n -> vp kw bs len ->
  exists o, trie_delete n bs len = Some o /\
  match o with
  | None => trie_retrieve n bs len = Some None
  | Some n' => (exists v, trie_retrieve n bs len = Some (Some v)) /\ wfn kw n' /\
     forall bs' len', vp kw bs' len' ->
      (pbits bs len = pbits bs' len' -> trie_retrieve n' bs' len' = Some None) /\
      (pbits bs len <> pbits bs' len' -> trie_retrieve n' bs' len' = trie_retrieve n bs' len')
  end.
Proof.
  induction kw as [|k IH]; intros n bs len W H.
  - destruct bs; [|destruct H as (_ & H & _); discriminate].
    destruct H as (Hb & _ & L). assert (len = 0) as -> by lia. cbn [trie_delete].
    eexists; split; [reflexivity|].
    destruct (node_delete_prefix n 0 (last_key [] 0)) as [n'|] eqn:E.
    + pose proof (wfn_delete_prefix _ _ _ _ _ W E) as W'.
      unfold node_delete_prefix in E. destruct (node_get_prefix n 0 _) eqn:G; [|discriminate].
      injection E as <-. split; [exists v; rewrite retrieve_nil, G; auto|]. split; auto.
      intros bs' len' H'. destruct bs'; [|destruct H' as (_ & H' & _); discriminate].
      destruct H' as (_ & _ & L'). assert (len' = 0) as -> by lia. split; [|congruence].
      intros _. rewrite retrieve_nil. unfold node_get_prefix. cbn [prefixes].
      f_equal. apply smap_find_del_eq; eauto using pf_irrefl, pf_trans, pf_total, wfn_pf.
    + unfold node_delete_prefix in E. rewrite retrieve_nil. destruct (node_get_prefix n 0 _) eqn:G; [discriminate|auto].
  - destruct bs as [|b r]; [destruct H as (_ & H & _); discriminate|].
    cbn [trie_delete trie_retrieve]. destruct (Nat.ltb_spec len 8) as [L|L].
    + eexists; split; [reflexivity|].
      destruct (node_delete_prefix n len (last_key (b :: r) len)) as [n'|] eqn:E.
      * pose proof (wfn_delete_prefix _ _ _ _ _ W E) as W'.
        unfold node_delete_prefix in E. destruct (node_get_prefix n len _) eqn:G; [|discriminate].
        injection E as <-. split; [eauto|]. split; auto.
        intros bs' len' H'. destruct bs' as [|b' r']; [destruct H' as (_ & H' & _); discriminate|].
        cbn [trie_retrieve]. destruct (Nat.ltb_spec len' 8) as [L'|L'].
        -- rewrite (pbits_low_eq (S k)) by auto. unfold node_get_prefix. cbn [prefixes].
           split; intros X.
           ++ rewrite X. f_equal. apply smap_find_del_eq; eauto using pf_irrefl, pf_trans, pf_total, wfn_pf.
           ++ f_equal. apply smap_find_del_neq; eauto using pf_irrefl, pf_trans, pf_total, wfn_pf.
        -- split; [intros X; exfalso; exact (pbits_low_high_neq (S k) _ _ _ _ H H' L L' X)|reflexivity].
      * unfold node_delete_prefix in E. destruct (node_get_prefix n len _) eqn:G; [discriminate|auto].
    + pose proof (vp_tail _ _ _ _ H L) as Ht.
      destruct (get_next_node n b) as [c|] eqn:Ec; [|eexists; split; reflexivity].
      destruct (wfn_child _ _ _ _ W Ec) as [Nc Wc].
      destruct (IH c r (len - 8) Wc Ht) as (o & E & G). rewrite E.
      destruct o as [c'|]; (eexists; split; [reflexivity|]); [|auto].
      destruct G as (G0 & Wc' & G). split; auto.
      assert (Wn : wfn (S k) (if node_is_empty c' then delete_branch n b else set_child n b c')).
      { destruct (node_is_empty c') eqn:Em; [apply wfn_delete_branch|apply wfn_set_child]; auto. }
      split; auto.
      intros bs' len' H'. destruct bs' as [|b' r']; [destruct H' as (_ & H' & _); discriminate|].
      cbn [trie_retrieve]. destruct (Nat.ltb_spec len' 8) as [L'|L'].
      * split; [intros X; exfalso; exact (pbits_low_high_neq (S k) _ _ _ _ H' H L' L (eq_sym X))|].
        intros _. destruct (node_is_empty c'); reflexivity.
      * pose proof (vp_tail _ _ _ _ H' L') as Ht'.
        rewrite (pbits_high_eq k) by auto.
        destruct (N.eq_dec b b') as [<-|Nb].
        -- assert (X : match get_next_node (if node_is_empty c' then delete_branch n b else set_child n b c') b
                       with Some c0 => trie_retrieve c0 r' (len' - 8) | None => Some None end
                       = trie_retrieve c' r' (len' - 8)).
           { destruct (node_is_empty c') eqn:Em; unfold get_next_node; cbn [branches delete_branch set_child].
             - rewrite smap_find_del_eq by eauto using N_irrefl, N_trans, N_total, wfn_br.
               destruct c' as [[|] [|]]; try discriminate. symmetry. eapply retrieve_empty; eauto.
             - rewrite smap_find_put_eq by auto using N_irrefl. auto. }
           rewrite X. destruct (G r' (len' - 8) Ht') as [G1 G2]. split.
           ++ intros [_ Y]. auto.
           ++ intros Y. rewrite G2 by tauto. rewrite Ec. auto.
        -- split; [tauto|]. intros _.
           assert (X : get_next_node (if node_is_empty c' then delete_branch n b else set_child n b c') b'
                       = get_next_node n b').
           { destruct (node_is_empty c'); unfold get_next_node; cbn [branches delete_branch set_child].
             - apply smap_find_del_neq; eauto using N_irrefl, N_trans, N_total, wfn_br.
             - apply smap_find_put_neq; eauto using N_irrefl, N_trans, N_total, wfn_br. }
           rewrite X; auto.
Qed.

(** ** Lookup *)
Lemma node_scan_spec (n : node) b : forall L, L <= 8 ->
  match node_scan n L (N.shiftr b (N.of_nat (8 - L))) with
  | Some v => exists len, len < L /\ node_get_prefix n len (N.shiftr b (N.of_nat (8 - len))) = Some v /\
                forall len', len < len' < L -> node_get_prefix n len' (N.shiftr b (N.of_nat (8 - len'))) = None
  | None => forall len, len < L -> node_get_prefix n len (N.shiftr b (N.of_nat (8 - len))) = None
  end.
Proof.
  induction L as [|L IH]; intros H; cbn [node_scan]; [intros; lia|].
  rewrite N.shiftr_shiftr.
  replace (N.of_nat (8 - S L) + 1)%N with (N.of_nat (8 - L)) by lia.
  destruct (node_get_prefix n L _) eqn:E.
  - exists L. repeat split; auto; try lia.
  - specialize (IH ltac:(lia)). destruct (node_scan n L _).
    + destruct IH as (len & A & B & C). exists len. repeat split; auto; try lia.
      intros len' H'. destruct (Nat.eq_dec len' L) as [->|]; auto. apply C; lia.
    + intros len Hl. destruct (Nat.eq_dec len L) as [->|]; auto. apply IH; lia.
Qed.

Lemma lookup_spec : forall kw (n : node) key found, wfn kw n -> bytes_ok key -> length key = kw ->
  node_is_empty n = false \/ found = None ->
  exists r, trie_lookup n key kw found = Some r /\
   ((exists v len, r = Some v /\ len <= 8 * kw /\ trie_retrieve n key len = Some (Some v) /\
       forall len', len < len' <= 8 * kw -> trie_retrieve n key len' = Some None) \/
    (r = found /\ forall len', len' <= 8 * kw -> trie_retrieve n key len' = Some None)).
Proof.
  induction kw as [|k IH]; intros n key found W Hb Hl He.
  - destruct key; [|discriminate]. cbn [trie_lookup]. eexists; split; [reflexivity|].
    assert (X : forall len, len <= 8 * 0 -> trie_retrieve n [] len = Some (node_get_prefix n 0 0)).
    { intros len Hlen. assert (len = 0) as -> by lia. reflexivity. }
    destruct (node_get_prefix n 0 0) as [v|] eqn:E.
    + left. exists v, 0. repeat split; auto. intros; lia.
    + right. split; auto. destruct He as [He| ->]; auto.
      exfalso. cbn in W. destruct W as (_ & S & B & P). destruct n as [br pf]; cbn in *. subst br.
      destruct pf as [|[[l q] v] t]; [discriminate|].
      inversion P as [|x y [P1 P2] P3]; subst. cbn in P1, P2.
      assert (l = 0) as -> by lia. cbn in P2. assert (q = 0%N) as -> by lia.
      unfold node_get_prefix in E. cbn in E. discriminate.
  - destruct key as [|b r]; [discriminate|]. cbn [trie_lookup].
    inversion Hb as [|x y Hb0 Hr]; subst. injection Hl as Hl.
    pose proof (node_scan_spec n b 8 ltac:(lia)) as Sc. rewrite N.shiftr_0_r in Sc.
    assert (Rlow : forall len, len < 8 -> trie_retrieve n (b :: r) len =
        Some (node_get_prefix n len (N.shiftr b (N.of_nat (8 - len))))).
    { intros len L. cbn [trie_retrieve]. destruct (Nat.ltb_spec len 8); [reflexivity|lia]. }
    assert (Rhigh : forall len, 8 <= len -> trie_retrieve n (b :: r) len =
        match get_next_node n b with Some c => trie_retrieve c r (len - 8) | None => Some None end).
    { intros len L. cbn [trie_retrieve]. destruct (Nat.ltb_spec len 8); [lia|reflexivity]. }
    destruct (get_next_node n b) as [c|] eqn:Ec.
    + destruct (wfn_child _ _ _ _ W Ec) as [Nc Wc].
      destruct (IH c r (match node_scan n 8 b with Some v => Some v | None => found end) Wc Hr Hl (or_introl Nc))
        as (x & Ex & [(v & len & Ev & Ll & Rv & Rn)|(Ev & Rn)]); rewrite Ex; eexists; (split; [reflexivity|]).
      * left. exists v, (len + 8). repeat split; auto; try lia.
        -- rewrite Rhigh by lia. replace (len + 8 - 8) with len by lia. auto.
        -- intros len' H'. rewrite Rhigh by lia. apply Rn. lia.
      * assert (Rh : forall len', 8 <= len' <= 8 * S k -> trie_retrieve n (b :: r) len' = Some None).
        { intros len' H'. rewrite Rhigh by lia. apply Rn. lia. }
        destruct (node_scan n 8 b) as [v|].
        -- left. destruct Sc as (len & A & B & C). exists v, len. repeat split; auto; try lia.
           ++ rewrite Rlow, B by auto. auto.
           ++ intros len' H'. destruct (Nat.lt_ge_cases len' 8).
              ** rewrite Rlow, C by lia. auto.
              ** apply Rh. lia.
        -- right. split; auto. intros len' H'. destruct (Nat.lt_ge_cases len' 8).
           ++ rewrite Rlow, Sc by lia. auto.
           ++ apply Rh. lia.
    + eexists; split; [reflexivity|]. destruct (node_scan n 8 b) as [v|].
      * left. destruct Sc as (len & A & B & C). exists v, len. repeat split; auto; try lia.
        -- rewrite Rlow, B by auto. auto.
        -- intros len' H'. destruct (Nat.lt_ge_cases len' 8).
           ++ rewrite Rlow, C by lia. auto.
           ++ rewrite Rhigh by lia. auto.
      * right. split; auto. intros len' H'. destruct (Nat.lt_ge_cases len' 8).
        -- rewrite Rlow, Sc by lia. auto.
        -- rewrite Rhigh by lia. auto.
Qed.

(** ** Refinement *)
Record Rl (kw : nat) (n : node) (t : table V) : Prop := {
  Rl_wf : wfn kw n;
  Rl_in : forall bs len v, vp kw bs len ->
            (trie_retrieve n bs len = Some (Some v) <-> In (pbits bs len, v) t);
  Rl_short : forall p v, In (p, v) t -> exists bs, vp kw bs (length p) /\ pbits bs (length p) = p }.

Definition tdel (p : list bool) (t : table V) : table V :=
  filter (fun e => if list_eq_dec bool_dec (fst e) p then false else true) t.

Lemma tdel_in p t q v : In (q, v) (tdel p t) <-> In (q, v) t /\ q <> p.
Proof.
  unfold tdel. rewrite filter_In. cbn [fst]. destruct (list_eq_dec bool_dec q p); intuition congruence.
Qed.

Lemma updated_del t p : updated t p None (tdel p t).
Proof.
  split.
  - intros q v N. rewrite tdel_in. tauto.
  - intros v. rewrite tdel_in. split; [tauto|discriminate].
Qed.

Lemma updated_put t p (v : V) : updated t p (Some v) ((p, v) :: tdel p t).
Proof.
  split.
  - intros q w N. cbn. rewrite tdel_in. split; [intros [X|X]; [congruence|tauto]|tauto].
  - intros w. cbn. rewrite tdel_in. split; [intros [X|X]; [congruence|tauto]|].
    intros X; left; congruence.
Qed.

Lemma Rl_none kw n t bs len : Rl kw n t -> vp kw bs len ->
  (trie_retrieve n bs len = Some None <-> forall v, ~ In (pbits bs len, v) t).
Proof.
  intros R H. destruct (retrieve_total kw n bs len H) as ([v|] & E); rewrite E; split; intros X.
  - discriminate.
  - exfalso. apply (X v). apply R; auto.
  - intros v Hv. apply (Rl_in _ _ _ R) in Hv; auto. congruence.
  - auto.
Qed.

Lemma is_prefix_firstn {A} (p l : list A) : is_prefix p l <-> firstn (length p) l = p /\ length p <= length l.
Proof.
  split.
  - intros (t & ->). rewrite firstn_app, Nat.sub_diag, firstn_O, app_nil_r, firstn_all, app_length. split; auto; lia.
  - intros [E L]. exists (skipn (length p) l). rewrite <- E at 1. symmetry; apply firstn_skipn.
Qed.

Lemma Rl_empty kw : Rl kw empty_node [].
Proof.
  split; [apply wfn_empty| |].
  - intros bs len v H. rewrite (retrieve_empty kw) by auto. split; [discriminate|intros []].
  - intros p v [].
Qed.

Lemma lpm_step_ok kw n t o : Rl kw n t -> lop_ok kw o ->
  exists n' x t', lpm_step kw n o = Some (n', x) /\ lspec_step t o x t' /\ Rl kw n' t'.
Proof.
  intros R H. destruct o; cbn [lpm_step lop_ok] in *.
  - destruct (insert_spec kw n p len v (Rl_wf _ _ _ R) H) as (n' & E & W & _ & G). rewrite E.
    exists n', LUnit, ((pbits p len, v) :: tdel (pbits p len) t). split; auto.
    split; [constructor; apply updated_put|]. split; auto.
    + intros bs l w Hv. destruct (G bs l Hv) as [G1 G2]. cbn. rewrite tdel_in.
      destruct (list_eq_dec bool_dec (pbits p len) (pbits bs l)) as [D|D].
      * rewrite (G1 D). split; [intros X; left; congruence|].
        intros [X|[_ X]]; congruence.
      * rewrite (G2 D), (Rl_in _ _ _ R) by auto. split; [intros X; right; split; auto|].
        intros [X|[X _]]; congruence.
    + intros q w Hq. cbn in Hq. rewrite tdel_in in Hq. destruct Hq as [X|[X _]].
      * injection X as <- _. exists p. rewrite (pbits_length kw) by auto. auto.
      * apply (Rl_short _ _ _ R q w X).
  - destruct (delete_spec kw n p len (Rl_wf _ _ _ R) H) as (o & E & G). rewrite E.
    destruct o as [n'|].
    + destruct G as ((v & Gv) & W & G).
      exists n', (LBool true), (tdel (pbits p len) t). split; auto.
      split; [apply ls_delete with v; [apply (Rl_in _ _ _ R); auto|apply updated_del]|].
      split; auto.
      * intros bs l w Hv. destruct (G bs l Hv) as [G1 G2]. rewrite tdel_in.
        destruct (list_eq_dec bool_dec (pbits p len) (pbits bs l)) as [D|D].
        -- rewrite (G1 D). split; [discriminate|]. intros [_ X]; congruence.
        -- rewrite (G2 D), (Rl_in _ _ _ R) by auto. split; [auto|]. tauto.
      * intros q w Hq. rewrite tdel_in in Hq. apply (Rl_short _ _ _ R q w). tauto.
    + exists n, (LBool false), t. split; auto. split; auto. constructor.
      apply (Rl_none kw n); auto.
  - destruct (retrieve_total kw n p len H) as (o & E). rewrite E.
    exists n, (LVal o), t. split; auto. split; auto. constructor.
    intros v. rewrite <- (Rl_in _ _ _ R) by auto. rewrite E. split; congruence.
  - destruct H as [Hb Hl].
    destruct (lookup_spec kw n key None (Rl_wf _ _ _ R) Hb Hl (or_intror eq_refl)) as (r & E & G).
    rewrite E. exists n, (LVal r), t. split; auto. split; auto. constructor.
    assert (Kl : length (bits_of_bytes key) = 8 * kw) by (rewrite bits_of_bytes_length, Hl; auto).
    assert (Pk : forall p v, In (p, v) t -> is_prefix p (bits_of_bytes key) ->
              vp kw key (length p) /\ trie_retrieve n key (length p) = Some (Some v)).
    { intros p v Hp P. apply is_prefix_firstn in P. destruct P as [P1 P2].
      assert (Hv : vp kw key (length p)) by (repeat split; auto; lia).
      split; auto. apply (Rl_in _ _ _ R); auto. unfold pbits. rewrite P1. auto. }
    destruct G as [(v & len & -> & L & Rv & Rn)|(-> & Rn)]; cbn.
    + assert (Hv : vp kw key len) by (repeat split; auto).
      exists (pbits key len). split; [apply (Rl_in _ _ _ R); auto|]. split.
      * apply is_prefix_firstn. rewrite (pbits_length kw) by auto. split; [reflexivity|lia].
      * intros p' v' Hp' P'. rewrite (pbits_length kw) by auto.
        destruct (Pk p' v' Hp' P') as [V1 V2].
        destruct (Nat.le_gt_cases (length p') len) as [|X]; auto.
        rewrite Rn in V2 by (destruct V1 as (_ & _ & V1); lia). discriminate.
    + intros p v Hp P. destruct (Pk p v Hp P) as [V1 V2].
      rewrite Rn in V2 by (destruct V1 as (_ & _ & V1); lia). discriminate.
  - exists empty_node, LUnit, []. split; auto. split; [constructor|apply Rl_empty].
Qed.

Lemma lpm_run_ok kw : forall ops n t, Rl kw n t -> Forall (lop_ok kw) ops ->
  exists n' outs t', lpm_run kw n ops = Some (n', outs) /\ lspec_run t ops outs t' /\ Rl kw n' t'.
Proof.
  induction ops as [|o ops IH]; intros n t R H; cbn.
  - do 3 eexists; split; [reflexivity|]. split; [constructor|auto].
  - inversion H; subst. destruct (lpm_step_ok kw n t o R H2) as (n' & x & t' & E & S & R').
    destruct (IH n' t' R' H3) as (n'' & xs & t'' & E2 & S2 & R''). rewrite E, E2.
    do 3 eexists; split; [reflexivity|]. split; [econstructor; eauto|auto].
Qed.

Lemma lpm_history kw ops : Forall (lop_ok kw) ops ->
  exists n outs t, lpm_run kw (@empty_node V) ops = Some (n, outs) /\ lspec_run [] ops outs t.
Proof.
  intros H. destruct (lpm_run_ok kw ops _ _ (Rl_empty kw) H) as (n & outs & t & E & S & _). eauto 6.
Qed.
End Proofs.
