(** Copy ids when no call is interrupted: the counter counts exactly the live copies, and restarts with every packet. *)
From Coq Require Import List Arith NArith Bool Lia.
From Verif Require Import Base PhvModel CopyModel CopySpec CopyProofs.
Import ListNotations.
Local Open Scope N_scope.

Section SEQ.
Variable W : N.
Hypothesis HW : 0 < W.

Lemma c_run_app es es' s : c_run W s (es ++ es') = (q <- c_run W s es ;; q' <- c_run W (fst q) es' ;; Some (fst q', snd q ++ snd q')).
Proof.
  revert s. induction es as [|e r IH]; intros s; cbn [app c_run].
  - cbn [bind fst snd]. destruct (c_run W s es') as [[s' o']|]; reflexivity.
  - destruct (c_step W s e) as [[s1 o]|]; [|reflexivity]. cbn [bind fst snd]. rewrite IH.
    destruct (c_run W s1 r) as [[s2 o2]|]; [|reflexivity]. cbn [bind fst snd].
    destruct (c_run W s2 es') as [[s3 o3]|]; [|reflexivity]. cbn [bind fst snd]. destruct o; reflexivity.
Qed.
Lemma slots_ok_app es es' s : slots_ok W s (es ++ es') -> slots_ok W s es /\ forall s' o, c_run W s es = Some (s', o) -> slots_ok W s' es'.
Proof.
  revert s. induction es as [|e r IH]; intros s; cbn [app slots_ok c_run].
  - intros H. split; [exact I|]. intros s' o E. injection E as <- <-. exact H.
  - intros [H1 H2]. destruct (c_step W s e) as [[s1 o1]|] eqn:ES; cbn [bind fst snd].
    + destruct (IH s1 H2) as [A B]. split; [tauto|]. intros s' o E. destruct (c_run W s1 r) as [[s2 o2]|] eqn:ER; [|discriminate].
      cbn [bind fst snd] in E. injection E as <- _. exact (B s2 o2 eq_refl).
    + split; [tauto|]. intros s' o E; discriminate.
Qed.

Definition seq_inv (pre : list aev) (s : cst) : Prop :=
  s_calls s = [] /\ length (s_arr s) = N.to_nat W /\ NoDup (s_live s) /\
  (forall x y, In x (s_live s) -> In y (s_live s) -> idx W (fst x) = idx W (fst y) -> fst x = fst y) /\
  (forall x, In x (s_live s) -> In (fst x) (creations pre)) /\
  (forall p, (0 < copies p pre)%nat -> In p (creations pre)) /\
  (forall k c, nth_error (s_arr s) k = Some c ->
     (nslot W k (s_live s) = 0%nat -> c = mk_c 0 0) /\
     forall x, In x (s_live s) -> in_slot W k x = true ->
       c_num c + 1 = N.of_nat (nslot W k (s_live s)) /\ c_max c = N.of_nat (copies (fst x) pre) /\ snd x <= c_max c).

Lemma find_call_one t c : find_call [(t, c)] t = Some c.
Proof. unfold find_call. cbn. rewrite Nat.eqb_refl. reflexivity. Qed.
Lemma drop_call_one t c : drop_call [(t, c)] t = [].
Proof. unfold drop_call. cbn. rewrite Nat.eqb_refl. reflexivity. Qed.
Lemma cntr_eqb_refl c : cntr_eqb c c = true.
Proof. unfold cntr_eqb. rewrite !N.eqb_refl. reflexivity. Qed.

Lemma clone_whole s p i s' o : s_calls s = [] -> c_run W s (whole (AClone p i)) = Some (s', o) ->
  exists old, In (p, i) (s_live s) /\ nth_error (s_arr s) (idx W p) = Some old /\
    s' = mk_cs (list_set (s_arr s) (idx W p) (added old)) ((p, c_max (added old)) :: s_live s) [].
Proof.
  intros Hc. cbn [whole c_run c_step]. destruct (usable s 0 (p, i)) eqn:U; [|discriminate]. apply usable_spec in U as [Hl _].
  destruct (nth_error (s_arr s) (idx W p)) as [old|] eqn:EO; [|discriminate]. cbn [bind fst snd s_calls s_arr s_live]. rewrite Hc, find_call_one. cbn [bind of_call fst snd].
  rewrite EO. cbn [bind negb andb]. rewrite cntr_eqb_refl, drop_call_one. cbn [bind fst snd]. intros E. injection E as <- _. exists old. auto.
Qed.
Lemma destroy_whole s p i s' o : s_calls s = [] -> c_run W s (whole (ADestroy p i)) = Some (s', o) ->
  exists old, In (p, i) (s_live s) /\ nth_error (s_arr s) (idx W p) = Some old /\
    s' = mk_cs (list_set (s_arr s) (idx W p) (removed old (mk_c 0 0))) (drop_packet (s_live s) (p, i)) [].
Proof.
  intros Hc. cbn [whole c_run c_step]. destruct (usable s 0 (p, i)) eqn:U; [|discriminate]. apply usable_spec in U as [Hl _].
  destruct (nth_error (s_arr s) (idx W p)) as [old|] eqn:EO; [|discriminate]. cbn [bind fst snd s_calls s_arr s_live]. rewrite Hc, find_call_one. cbn [bind of_call fst snd].
  rewrite EO. cbn [bind negb andb]. rewrite cntr_eqb_refl, drop_call_one. cbn [bind fst snd]. intros E. injection E as <- _. exists old. auto.
Qed.

Lemma copies_snoc p pre a : copies p (pre ++ [a]) = (copies p pre + match a with AClone q _ => if (q =? p)%N then 1 else 0 | _ => 0 end)%nat.
Proof. unfold copies. rewrite filter_app, app_length. cbn [filter]. destruct a as [q|q i|q i]; [reflexivity| |reflexivity]. destruct (q =? p)%N; reflexivity. Qed.
Lemma creations_snoc pre a : creations (pre ++ [a]) = creations pre ++ match a with ANew q => [q] | _ => [] end.
Proof. unfold creations. rewrite flat_map_app. cbn [flat_map]. rewrite app_nil_r. reflexivity. Qed.

Lemma in_slot_pid k p i : in_slot W k (p, i) = Nat.eqb (idx W p) k.
Proof. reflexivity. Qed.

Lemma seq_step pre s a s' o : seq_inv pre s -> NoDup (creations (pre ++ [a])) -> (forall p, N.of_nat (copies p (pre ++ [a])) <= 65535) ->
  slots_ok W s (whole a) -> c_run W s (whole a) = Some (s', o) -> seq_inv (pre ++ [a]) s'.
Proof.
  intros (HC & HL & HN & HP & HCr & HCp & HK) Hnd Hcp Hsl Hr. destruct a as [p|p i|p i].
  - cbn [whole c_run c_step bind fst snd] in Hr. injection Hr as <- _. cbn [whole slots_ok] in Hsl. destruct Hsl as [Hg _].
    rewrite creations_snoc in Hnd.
    assert (Hz : copies p pre = 0%nat).
    { destruct (copies p pre) eqn:E; [reflexivity|exfalso]. assert (Hi : In p (creations pre)) by (apply HCp; lia).
      apply NoDup_remove_2 in Hnd. apply Hnd. rewrite app_nil_r. exact Hi. }
    assert (Hzs : nslot W (idx W p) (s_live s) = 0%nat).
    { destruct (nslot W (idx W p) (s_live s)) eqn:E; [reflexivity|exfalso]. unfold nslot in E.
      destruct (filter (in_slot W (idx W p)) (s_live s)) as [|x r] eqn:F; [discriminate|].
      assert (Hx : In x (filter (in_slot W (idx W p)) (s_live s))) by (rewrite F; left; reflexivity).
      apply filter_In in Hx as [Hx Hi]. apply (Hg x Hx). apply idx_mod; [exact HW|]. unfold in_slot in Hi. apply Nat.eqb_eq in Hi. exact Hi. }
    unfold seq_inv; cbn [s_arr s_live s_calls]. split; [exact HC|]. split; [exact HL|]. split; [|split; [|split; [|split]]].
    + constructor; [|exact HN]. intros Hi. apply (Hg _ Hi). reflexivity.
    + intros x y [<-|Hx] [<-|Hy] E; [reflexivity| | |exact (HP x y Hx Hy E)]; exfalso; cbn [fst] in E.
      * apply (Hg _ Hy). symmetry. apply idx_mod; [exact HW|exact E].
      * apply (Hg _ Hx). apply idx_mod; [exact HW|exact E].
    + intros x [<-|Hx]; rewrite creations_snoc, in_app_iff; [right; left; reflexivity|left; exact (HCr x Hx)].
    + intros q Hq. rewrite copies_snoc in Hq. rewrite creations_snoc, in_app_iff. left. apply HCp. lia.
    + intros k c Hc. destruct (HK k c Hc) as [K1 K2]. rewrite nslot_cons, in_slot_pid. destruct (Nat.eqb (idx W p) k) eqn:E.
      * apply Nat.eqb_eq in E; subst k. rewrite (K1 Hzs), Hzs. split; [lia|]. intros x [<-|Hx] Hi.
        -- cbn [c_num c_max fst snd]. rewrite copies_snoc, Hz. lia.
        -- pose proof (nslot_zero W _ _ Hzs x Hx). congruence.
      * split; [exact K1|]. intros x [<-|Hx] Hi; [rewrite in_slot_pid in Hi; congruence|]. rewrite copies_snoc, Nat.add_0_r. exact (K2 x Hx Hi).
  - destruct (clone_whole s p i s' o HC Hr) as (old & Hi & EO & ->). clear Hr.
    destruct (HK _ _ EO) as [K1 K2]. assert (Hself : in_slot W (idx W p) (p, i) = true) by (rewrite in_slot_pid; apply Nat.eqb_refl).
    destruct (K2 _ Hi Hself) as (N1 & N2 & N3). cbn [fst snd] in N2, N3. pose proof (Hcp p) as Hcpp. rewrite copies_snoc, N.eqb_refl in Hcpp.
    assert (Hns : (nslot W (idx W p) (s_live s) <= copies p pre + 1)%nat).
    { (* the live ids are distinct numbers up to max *)
      assert (Hle : (length (map snd (filter (in_slot W (idx W p)) (s_live s))) <= length (map N.of_nat (seq 0 (copies p pre + 1))))%nat).
      { apply NoDup_incl_length.
        - assert (Hnf : NoDup (filter (in_slot W (idx W p)) (s_live s))) by (apply NoDup_filter; exact HN).
          assert (Hall : forall x, In x (filter (in_slot W (idx W p)) (s_live s)) -> fst x = p).
          { intros x Hx. apply filter_In in Hx as [Hx Hs]. apply (HP x (p, i) Hx Hi). unfold in_slot in Hs. apply Nat.eqb_eq in Hs. exact Hs. }
          revert Hnf Hall. generalize (filter (in_slot W (idx W p)) (s_live s)) as l. induction l as [|[q j] l IH]; intros Hnf Hall; cbn [map]; [constructor|].
          inversion Hnf as [|? ? H1 H2]; subst. constructor.
          + rewrite in_map_iff. intros [[q' j'] [E Hx]]. cbn [snd] in E. subst j'. apply H1.
            assert (q = p) by exact (Hall (q, j) (or_introl eq_refl)). assert (q' = p) by exact (Hall (q', j) (or_intror Hx)). subst. exact Hx.
          + apply IH; [exact H2|]. intros x Hx. apply Hall. right; exact Hx.
        - intros j Hj. apply in_map_iff in Hj as [x [<- Hx]]. apply filter_In in Hx as [Hx Hs]. destruct (K2 x Hx Hs) as (_ & E2 & E3).
          assert (Hpx : fst x = p) by (apply (HP x (p, i) Hx Hi); unfold in_slot in Hs; apply Nat.eqb_eq in Hs; exact Hs).
          rewrite Hpx in E2. apply in_map_iff. exists (N.to_nat (snd x)). split; [lia|]. apply in_seq. lia. }
      rewrite !map_length, seq_length in Hle. exact Hle. }
    assert (Hidx : (idx W p < length (s_arr s))%nat) by (apply nth_error_Some; rewrite EO; discriminate).
    assert (Hadd : added old = mk_c (c_max old + 1) (c_num old + 1)).
    { unfold added, w16. rewrite !N.mod_small by lia. reflexivity. }
    rewrite Hadd in *. cbn [c_max] in *.
    unfold seq_inv; cbn [s_arr s_live s_calls]. split; [reflexivity|]. split; [rewrite list_set_length; exact HL|]. split; [|split; [|split; [|split]]].
    + constructor; [|exact HN]. intros Hx. destruct (K2 _ Hx) as (_ & _ & E3); [rewrite in_slot_pid; apply Nat.eqb_refl|]. cbn [snd] in E3. lia.
    + intros x y [<-|Hx] [<-|Hy] E; [reflexivity| | |exact (HP x y Hx Hy E)]; cbn [fst] in *.
      * exact (HP (p, i) y Hi Hy E).
      * exact (HP x (p, i) Hx Hi E).
    + intros x [<-|Hx]; rewrite creations_snoc, app_nil_r; [exact (HCr (p, i) Hi)|exact (HCr x Hx)].
    + intros q Hq. rewrite copies_snoc in Hq. rewrite creations_snoc, app_nil_r. destruct (p =? q)%N eqn:E; [apply N.eqb_eq in E; subst q; exact (HCr (p, i) Hi)|]. apply HCp. lia.
    + intros k c Hc. rewrite nslot_cons, in_slot_pid. destruct (Nat.eqb (idx W p) k) eqn:E.
      * apply Nat.eqb_eq in E; subst k. rewrite nth_error_list_set_eq in Hc by exact Hidx. injection Hc as <-. split; [lia|].
        cbn [c_num c_max]. intros x Hx Hs. assert (Hpx : fst x = p).
        { destruct Hx as [<-|Hx]; [reflexivity|]. apply (HP x (p, i) Hx Hi); unfold in_slot in Hs; apply Nat.eqb_eq in Hs; exact Hs. }
        rewrite Hpx, copies_snoc, N.eqb_refl. split; [lia|]. split; [lia|]. destruct Hx as [<-|Hx]; [cbn [snd]; lia|]. destruct (K2 x Hx Hs) as (_ & _ & E3). lia.
      * pose proof (proj1 (Nat.eqb_neq _ _) E) as Hne. rewrite nth_error_list_set_neq in Hc by exact Hne. destruct (HK k c Hc) as [L1 L2].
        split; [exact L1|]. intros x [<-|Hx] Hs; [rewrite in_slot_pid in Hs; congruence|]. rewrite copies_snoc.
        assert (Hpx : (p =? fst x)%N = false). { apply N.eqb_neq. intros ->. unfold in_slot in Hs. congruence. }
        rewrite Hpx, Nat.add_0_r. exact (L2 x Hx Hs).
  - destruct (destroy_whole s p i s' o HC Hr) as (old & Hi & EO & ->). clear Hr.
    destruct (HK _ _ EO) as [K1 K2]. assert (Hself : in_slot W (idx W p) (p, i) = true) by (rewrite in_slot_pid; apply Nat.eqb_refl).
    destruct (K2 _ Hi Hself) as (N1 & N2 & N3). cbn [fst snd] in N2, N3.
    assert (Hidx : (idx W p < length (s_arr s))%nat) by (apply nth_error_Some; rewrite EO; discriminate).
    unfold seq_inv; cbn [s_arr s_live s_calls]. split; [reflexivity|]. split; [rewrite list_set_length; exact HL|]. split; [|split; [|split; [|split]]].
    + apply drop_packet_nodup, HN.
    + intros x y Hx Hy. apply drop_packet_incl in Hx, Hy. exact (HP x y Hx Hy).
    + intros x Hx. apply drop_packet_incl in Hx. rewrite creations_snoc, app_nil_r. exact (HCr x Hx).
    + intros q Hq. rewrite copies_snoc, Nat.add_0_r in Hq. rewrite creations_snoc, app_nil_r. exact (HCp q Hq).
    + intros k c Hc. pose proof (drop_packet_nslot W k _ _ Hi) as Hd. rewrite in_slot_pid in Hd. destruct (Nat.eqb (idx W p) k) eqn:E.
      * apply Nat.eqb_eq in E; subst k. rewrite nth_error_list_set_eq in Hc by exact Hidx. injection Hc as <-. unfold removed.
        destruct (c_num old =? 0) eqn:E0.
        -- apply N.eqb_eq in E0. assert (Hz : nslot W (idx W p) (drop_packet (s_live s) (p, i)) = 0%nat) by lia.
           split; [reflexivity|]. intros x Hx Hs. pose proof (nslot_zero W _ _ Hz x Hx). congruence.
        -- apply N.eqb_neq in E0. split; [lia|]. intros x Hx Hs. apply drop_packet_incl in Hx. destruct (K2 x Hx Hs) as (E1 & E2 & E3).
           cbn [c_num c_max]. rewrite copies_snoc, Nat.add_0_r. split; [lia|]. split; [exact E2|exact E3].
      * pose proof (proj1 (Nat.eqb_neq _ _) E) as Hne. rewrite nth_error_list_set_neq in Hc by exact Hne. destruct (HK k c Hc) as [L1 L2].
        split; [intros Hz; apply L1; lia|]. intros x Hx Hs. apply drop_packet_incl in Hx. destruct (L2 x Hx Hs) as (E1 & E2 & E3). rewrite copies_snoc, Nat.add_0_r. split; [lia|]. split; assumption.
Qed.

Lemma copies_app p a b : copies p (a ++ b) = (copies p a + copies p b)%nat.
Proof. unfold copies. rewrite filter_app, app_length. reflexivity. Qed.
Lemma NoDup_app_left {A} (l m : list A) : NoDup (l ++ m) -> NoDup l.
Proof. induction l as [|x l IH]; cbn [app]; intros H; [constructor|]. inversion H as [|? ? H1 H2]; subst. constructor; [rewrite in_app_iff in H1; tauto|auto]. Qed.

Lemma seq_run l : forall pre s s' o, seq_inv pre s -> NoDup (creations (pre ++ l)) -> (forall p, N.of_nat (copies p (pre ++ l)) <= 65535) ->
  slots_ok W s (flat_map whole l) -> c_run W s (flat_map whole l) = Some (s', o) -> seq_inv (pre ++ l) s'.
Proof.
  induction l as [|a l IH]; intros pre s s' o HI HD HC HS HR; cbn [flat_map] in *.
  - injection HR as <- _. rewrite app_nil_r. exact HI.
  - rewrite c_run_app in HR. destruct (c_run W s (whole a)) as [[s1 o1]|] eqn:E1; [|discriminate]. cbn [bind fst snd] in HR.
    destruct (c_run W s1 (flat_map whole l)) as [[s2 o2]|] eqn:E2; [|discriminate]. cbn [bind fst snd] in HR. injection HR as <- _.
    apply slots_ok_app in HS as [S1 S2]. specialize (S2 _ _ E1).
    replace (pre ++ a :: l) with ((pre ++ [a]) ++ l) in * by (rewrite <- app_assoc; reflexivity).
    apply (IH _ s1 s2 o2); [|exact HD|exact HC|exact S2|exact E2].
    apply (seq_step pre s a s1 o1); [exact HI| | |exact S1|exact E1].
    + unfold creations in *. rewrite flat_map_app in HD. exact (NoDup_app_left _ _ HD).
    + intros p. specialize (HC p). rewrite copies_app in HC. lia.
Qed.
Lemma seq_start : seq_inv [] (c_start W).
Proof.
  unfold seq_inv, c_start; cbn [s_arr s_live s_calls]. split; [reflexivity|]. split; [apply repeat_length|]. split; [constructor|]. split; [cbn; tauto|]. split; [cbn; tauto|].
  split; [intros p; cbn; lia|]. intros k c Hc. apply nth_error_In, repeat_spec in Hc as ->. split; [reflexivity|cbn; tauto].
Qed.
End SEQ.
