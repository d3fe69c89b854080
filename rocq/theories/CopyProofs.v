(** Copy ids under any schedule: the counter's num is at least the number of live packets minus one. *)
From Coq Require Import List Arith NArith Bool Lia.
From Verif Require Import Base PhvModel CopyModel CopySpec.
Import ListNotations.
Local Open Scope N_scope.

Lemma pk_eqb_iff a b : pk_eqb a b = true <-> a = b.
Proof.
  destruct a as [a1 a2], b as [b1 b2]; unfold pk_eqb; cbn [fst snd]; rewrite andb_true_iff, !N.eqb_eq.
  split; [intros [-> ->]; reflexivity|intros E; injection E; auto].
Qed.
Lemma cntr_eqb_eq a b : cntr_eqb a b = true -> a = b.
Proof. destruct a as [a1 a2], b as [b1 b2]; unfold cntr_eqb; cbn [c_max c_num]; rewrite andb_true_iff, !N.eqb_eq; intros [-> ->]; reflexivity. Qed.

Definition in_slot (W : N) (k : nat) (x : N * N) : bool := Nat.eqb (idx W (fst x)) k.
Definition nslot (W : N) (k : nat) (l : list (N * N)) : nat := length (filter (in_slot W k) l).

Lemma drop_packet_incl l x y : In y (drop_packet l x) -> In y l.
Proof. induction l as [|z r IH]; cbn [drop_packet]; [tauto|]. destruct (pk_eqb z x); cbn [In]; tauto. Qed.
Lemma drop_packet_keep l x y : In y l -> y <> x -> In y (drop_packet l x).
Proof.
  induction l as [|z r IH]; cbn [drop_packet In]; [tauto|]. intros H N. destruct (pk_eqb z x) eqn:E.
  - apply pk_eqb_iff in E. destruct H as [->|H]; [contradiction|exact H].
  - cbn [In]; tauto.
Qed.
Lemma drop_packet_nodup l x : NoDup l -> NoDup (drop_packet l x).
Proof.
  induction l as [|z r IH]; cbn [drop_packet]; [auto|]. intros H; inversion H; subst. destruct (pk_eqb z x); [assumption|].
  constructor; [|auto]. intros Hi. apply drop_packet_incl in Hi. contradiction.
Qed.
Lemma drop_packet_nslot W k l x : In x l -> (nslot W k (drop_packet l x) + (if in_slot W k x then 1 else 0) = nslot W k l)%nat.
Proof.
  unfold nslot. induction l as [|z r IH]; cbn [drop_packet In filter]; [tauto|]. intros H. destruct (pk_eqb z x) eqn:E.
  - apply pk_eqb_iff in E; subst z. destruct (in_slot W k x); cbn [length]; lia.
  - assert (Hr : In x r) by (destruct H as [->|H]; [assert (pk_eqb x x = true) by (apply pk_eqb_iff; reflexivity); congruence|exact H]).
    specialize (IH Hr). cbn [filter]. destruct (in_slot W k z); cbn [length]; lia.
Qed.
Lemma nslot_in W k l x : In x l -> in_slot W k x = true -> (1 <= nslot W k l)%nat.
Proof. intros H E. pose proof (drop_packet_nslot W k l x H) as P. rewrite E in P. lia. Qed.
Lemma nslot_zero W k l : nslot W k l = 0%nat -> forall x, In x l -> in_slot W k x = false.
Proof. intros H x Hx. destruct (in_slot W k x) eqn:E; [|reflexivity]. pose proof (nslot_in W k l x Hx E); lia. Qed.

Lemma find_call_in l t c : find_call l t = Some c -> In (t, c) l.
Proof.
  unfold find_call. destruct (find _ l) as [[t' c']|] eqn:E; [|discriminate]. cbn. intros H; injection H as <-.
  apply find_some in E as [Hi Ht]. cbn in Ht. apply Nat.eqb_eq in Ht as ->. exact Hi.
Qed.
Lemma drop_call_in l t u c : In (u, c) (drop_call l t) <-> In (u, c) l /\ u <> t.
Proof. unfold drop_call. rewrite filter_In. cbn [fst]. rewrite negb_true_iff, Nat.eqb_neq. tauto. Qed.

Section INV.
Variable W : N.

(** Calls in progress are on different live packets, one per thread *)
Definition calls_ok (live : list (N * N)) (calls : list (nat * call)) : Prop :=
  (forall t c, In (t, c) calls -> In (of_call c) live) /\
  (forall t c u d, In (t, c) calls -> In (u, d) calls -> (t = u -> c = d) /\ (of_call c = of_call d -> t = u)).
Definition call_num (b : nat -> N) (c : call) : Prop :=
  match c with Adding p _ old => c_num old <= b (idx W p) | Removing p _ old new => c_num old <= b (idx W p) /\ c_num new <= b (idx W p) end.
(** [a k]: copies made in slot k so far *)
Definition inv (a : nat -> N) (s : cst) : Prop :=
  length (s_arr s) = N.to_nat W /\ NoDup (s_live s) /\ calls_ok (s_live s) (s_calls s) /\
  (forall t c, In (t, c) (s_calls s) -> call_num a c) /\
  (forall x y, In x (s_live s) -> In y (s_live s) -> idx W (fst x) = idx W (fst y) -> fst x = fst y) /\
  (forall k c, nth_error (s_arr s) k = Some c ->
     c_max c <= a k /\ c_num c <= a k /\ (N.of_nat (nslot W k (s_live s)) <= c_num c + 1) /\
     forall x, In x (s_live s) -> in_slot W k x = true -> snd x <= c_max c).

Lemma nslot_cons k x l : nslot W k (x :: l) = ((if in_slot W k x then 1 else 0) + nslot W k l)%nat.
Proof. unfold nslot. cbn [filter]. destruct (in_slot W k x); reflexivity. Qed.

Lemma calls_start live calls t c :
  calls_ok live calls -> In (of_call c) live ->
  existsb (fun d => Nat.eqb (fst d) t || pk_eqb (of_call c) (of_call (snd d))) calls = false ->
  calls_ok live ((t, c) :: calls).
Proof.
  intros [H1 H2] Hl Hf.
  assert (Hn : forall u d, In (u, d) calls -> u <> t /\ of_call c <> of_call d).
  { intros u d Hi.
    assert (Hx : (Nat.eqb u t || pk_eqb (of_call c) (of_call d)) = false).
    { destruct (_ || _) eqn:E; [|reflexivity]. rewrite <- Hf. symmetry. apply existsb_exists. exists (u, d). auto. }
    apply orb_false_iff in Hx as [Ha Hb]. apply Nat.eqb_neq in Ha. split; [exact Ha|]. intros E. apply pk_eqb_iff in E. congruence. }
  split.
  - intros u d [E|Hi]; [injection E as <- <-; exact Hl|exact (H1 u d Hi)].
  - intros t1 c1 t2 c2 [E1|I1] [E2|I2].
    + injection E1 as <- <-. injection E2 as <- <-. tauto.
    + injection E1 as <- <-. destruct (Hn _ _ I2) as [A B]. split; intros E; [symmetry in E; contradiction|contradiction].
    + injection E2 as <- <-. destruct (Hn _ _ I1) as [A B]. split; intros E; [contradiction|symmetry in E; contradiction].
    + exact (H2 _ _ _ _ I1 I2).
Qed.
Lemma calls_drop live calls t : calls_ok live calls -> calls_ok live (drop_call calls t).
Proof.
  intros [H1 H2]. split.
  - intros u c Hi. apply drop_call_in in Hi as [Hi _]. exact (H1 u c Hi).
  - intros t1 c1 t2 c2 I1 I2. apply drop_call_in in I1 as [I1 _]. apply drop_call_in in I2 as [I2 _]. exact (H2 _ _ _ _ I1 I2).
Qed.
Lemma calls_more live calls x : calls_ok live calls -> calls_ok (x :: live) calls.
Proof. intros [H1 H2]. split; [|exact H2]. intros t c Hi. right. exact (H1 t c Hi). Qed.
(** the call of [t] replaced by one on the same packet *)
Lemma calls_again live calls t c d : calls_ok live calls -> In (t, c) calls -> of_call d = of_call c -> calls_ok live ((t, d) :: drop_call calls t).
Proof.
  intros H Hc E. apply calls_start; [apply calls_drop; exact H|rewrite E; exact (proj1 H t c Hc)|].
  apply not_true_is_false. intros Hx. apply existsb_exists in Hx as [[u e] [Hi Hb]]. cbn [fst snd] in Hb.
  apply drop_call_in in Hi as [Hi Hne]. apply orb_true_iff in Hb as [Hb|Hb].
  - apply Nat.eqb_eq in Hb. contradiction.
  - apply pk_eqb_iff in Hb. rewrite E in Hb. destruct (proj2 H _ _ _ _ Hi Hc) as [_ P]. apply Hne, P. symmetry; exact Hb.
Qed.
Lemma calls_gone live calls t c : calls_ok live calls -> In (t, c) calls -> calls_ok (drop_packet live (of_call c)) (drop_call calls t).
Proof.
  intros H Hc. pose proof (calls_drop live calls t H) as [D1 D2]. split; [|exact D2].
  intros u d Hi. apply drop_packet_keep; [exact (D1 u d Hi)|]. intros E.
  apply drop_call_in in Hi as [Hi Hne]. destruct (proj2 H _ _ _ _ Hi Hc) as [_ P]. apply Hne, P, E.
Qed.

Definition bump (a : nat -> N) (o : option (N * N)) : nat -> N :=
  fun k => a k + match o with Some x => if in_slot W k x then 1 else 0 | None => 0 end.

Lemma usable_spec s t x : usable s t x = true ->
  In x (s_live s) /\ existsb (fun c => Nat.eqb (fst c) t || pk_eqb x (of_call (snd c))) (s_calls s) = false.
Proof.
  unfold usable. rewrite andb_true_iff, negb_true_iff. intros [H1 H2]. split; [|exact H2].
  apply existsb_exists in H1 as [y [Hy E]]. apply pk_eqb_iff in E as ->. exact Hy.
Qed.

Lemma idx_mod p q : 0 < W -> (idx W p = idx W q <-> p mod W = q mod W).
Proof. intros HW. unfold idx. rewrite N2Nat.inj_iff. reflexivity. Qed.

Lemma call_num_mono (a b : nat -> N) c : (forall k, a k <= b k) -> call_num a c -> call_num b c.
Proof. intros H. destruct c as [p i o|p i o n]; cbn [call_num]; specialize (H (idx W p)); lia. Qed.

Lemma inv_step a s e s' o : 0 < W -> inv a s -> c_step W s e = Some (s', o) ->
  match e with ENew pid => alone_in_slot W (s_live s) pid | _ => True end ->
  (forall k, bump a o k <= 65535) -> inv (bump a o) s'.
Proof.
  intros HW (HL & HN & HC & HM & HP & HK) Hs Hg Hb.
  assert (Hup : forall k, a k <= bump a o k) by (intros k; unfold bump; lia).
  destruct e as [pid|t pid cid|t pid cid|t sp]; cbn [c_step] in Hs.
  - injection Hs as <- <-.
    assert (Hz : forall k, in_slot W k (pid, 0) = true -> nslot W k (s_live s) = 0%nat).
    { intros k Hk. destruct (nslot W k (s_live s)) eqn:E; [reflexivity|exfalso].
      unfold nslot in E. destruct (filter (in_slot W k) (s_live s)) as [|x r] eqn:F; [discriminate|].
      assert (Hx : In x (filter (in_slot W k) (s_live s))) by (rewrite F; left; reflexivity).
      apply filter_In in Hx as [Hx Hi]. apply (Hg x Hx). apply idx_mod; [exact HW|].
      unfold in_slot in *. apply Nat.eqb_eq in Hi, Hk. cbn [fst] in Hk. congruence. }
    unfold inv; cbn [s_arr s_live s_calls]. split; [exact HL|]. split; [|split; [|split; [|split]]].
    + constructor; [|exact HN]. intros Hi. apply (Hg _ Hi). reflexivity.
    + apply calls_more, HC.
    + intros t c Hi. apply (call_num_mono a); [exact Hup|exact (HM t c Hi)].
    + intros x y [<-|Hx] [<-|Hy] E; [reflexivity| | |exact (HP x y Hx Hy E)]; exfalso; cbn [fst] in E.
      * apply (Hg _ Hy). symmetry. apply idx_mod; [exact HW|exact E].
      * apply (Hg _ Hx). apply idx_mod; [exact HW|exact E].
    + intros k c Hc. specialize (HK k c Hc) as (K1 & K2 & K3 & K4). unfold bump. rewrite nslot_cons. split; [lia|]. split; [lia|]. split.
      * destruct (in_slot W k (pid, 0)) eqn:E; [|lia]. rewrite (Hz k E). lia.
      * intros x [<-|Hx] Hi; [cbn; lia|exact (K4 x Hx Hi)].
  - destruct (usable s t (pid, cid)) eqn:U; [|discriminate]. apply usable_spec in U as [Hl He].
    destruct (nth_error (s_arr s) (idx W pid)) as [old|] eqn:EO; [|discriminate]. cbn [bind] in Hs. injection Hs as <- <-.
    assert (Hbb : forall k, bump a None k = a k) by (intros k; unfold bump; lia).
    unfold inv; cbn [s_arr s_live s_calls]. split; [exact HL|]. split; [exact HN|]. split; [apply calls_start; assumption|]. split; [|split; [exact HP|]].
    + intros u c [E|Hi]; [injection E as <- <-|apply (call_num_mono a); [exact Hup|exact (HM u c Hi)]].
      cbn [call_num]. rewrite Hbb. destruct (HK _ _ EO) as (_ & K & _). exact K.
    + intros k c Hc. rewrite Hbb. exact (HK k c Hc).
  - destruct (usable s t (pid, cid)) eqn:U; [|discriminate]. apply usable_spec in U as [Hl He].
    destruct (nth_error (s_arr s) (idx W pid)) as [old|] eqn:EO; [|discriminate]. cbn [bind] in Hs. injection Hs as <- <-.
    assert (Hbb : forall k, bump a None k = a k) by (intros k; unfold bump; lia).
    unfold inv; cbn [s_arr s_live s_calls]. split; [exact HL|]. split; [exact HN|]. split; [apply calls_start; assumption|]. split; [|split; [exact HP|]].
    + intros u c [E|Hi]; [injection E as <- <-|apply (call_num_mono a); [exact Hup|exact (HM u c Hi)]].
      cbn [call_num c_num]. rewrite Hbb. destruct (HK _ _ EO) as (_ & K & _). split; [exact K|lia].
    + intros k c Hc. rewrite Hbb. exact (HK k c Hc).
  - destruct (find_call (s_calls s) t) as [c|] eqn:EC; [|discriminate]. cbn [bind] in Hs. apply find_call_in in EC.
    destruct (nth_error (s_arr s) (idx W (fst (of_call c)))) as [cur|] eqn:EO; [|discriminate]. cbn [bind] in Hs.
    pose proof (proj1 HC t c EC) as Hlive. pose proof (HM t c EC) as Hnum. destruct (HK _ _ EO) as (K1 & K2 & K3 & K4).
    assert (Hidx : (idx W (fst (of_call c)) < length (s_arr s))%nat) by (apply nth_error_Some; rewrite EO; discriminate).
    destruct c as [pid cid old|pid cid old new]; cbn [of_call fst] in *.
    + destruct (negb sp && cntr_eqb cur old) eqn:EQ.
      * apply andb_true_iff in EQ as [_ EQ]. apply cntr_eqb_eq in EQ as ->. injection Hs as <- <-.
        assert (Hsl : forall k i, in_slot W k (pid, i) = Nat.eqb (idx W pid) k) by reflexivity.
        assert (Hak : a (idx W pid) + 1 <= 65535).
        { specialize (Hb (idx W pid)). unfold bump in Hb. rewrite Hsl, Nat.eqb_refl in Hb. exact Hb. }
        assert (Hadd : added old = mk_c (c_max old + 1) (c_num old + 1)).
        { unfold added, w16. rewrite !N.mod_small by lia. reflexivity. }
        assert (Hw : w16 (c_max old + 1) = c_max old + 1) by (unfold w16; apply N.mod_small; lia).
        rewrite Hadd in *. cbn [c_max] in *. rewrite ?Hw in *.
        unfold inv; cbn [s_arr s_live s_calls]. split; [rewrite list_set_length; exact HL|]. split; [|split; [|split; [|split]]].
        -- constructor; [|exact HN]. intros Hi. specialize (K4 _ Hi). rewrite Hsl, Nat.eqb_refl in K4. specialize (K4 eq_refl). cbn [snd] in K4. lia.
        -- apply calls_more, calls_drop, HC.
        -- intros u d Hi. apply drop_call_in in Hi as [Hi _]. apply (call_num_mono a); [exact Hup|exact (HM u d Hi)].
        -- intros x y [<-|Hx] [<-|Hy] E; [reflexivity| | |exact (HP x y Hx Hy E)]; cbn [fst] in *.
           ++ exact (HP (pid, cid) y Hlive Hy E).
           ++ exact (HP x (pid, cid) Hx Hlive E).
        -- intros k c Hc. unfold bump. rewrite nslot_cons, Hsl. destruct (Nat.eq_dec (idx W pid) k) as [<-|Hne].
           ++ rewrite nth_error_list_set_eq in Hc by exact Hidx. injection Hc as <-. rewrite Nat.eqb_refl. cbn [c_max c_num].
              split; [lia|]. split; [lia|]. split; [lia|]. intros x [<-|Hx] Hi; [cbn [snd]; lia|]. specialize (K4 x Hx Hi). lia.
           ++ rewrite nth_error_list_set_neq in Hc by exact Hne. pose proof (proj2 (Nat.eqb_neq _ _) Hne) as Hq. rewrite Hq.
              destruct (HK k c Hc) as (L1 & L2 & L3 & L4). split; [lia|]. split; [lia|]. split; [lia|].
              intros x [<-|Hx] Hi; [rewrite Hsl, Hq in Hi; discriminate|exact (L4 x Hx Hi)].
      * injection Hs as <- <-. assert (Hbb : forall k, bump a None k = a k) by (intros k; unfold bump; lia).
        unfold inv; cbn [s_arr s_live s_calls]. split; [exact HL|]. split; [exact HN|]. split; [exact (calls_again _ _ t _ (Adding pid cid cur) HC EC eq_refl)|]. split; [|split; [exact HP|]].
        -- intros u d [E|Hi]; [injection E as <- <-; cbn [call_num]; rewrite Hbb; exact K2|].
           apply drop_call_in in Hi as [Hi _]. apply (call_num_mono a); [exact Hup|exact (HM u d Hi)].
        -- intros k c Hc. rewrite Hbb. exact (HK k c Hc).
    + cbn [call_num] in Hnum. destruct Hnum as [Hn1 Hn2].
      assert (Hrem : c_num (removed old new) <= a (idx W pid)).
      { unfold removed. destruct (c_num old =? 0); cbn [c_num]; lia. }
      assert (Hbb : forall k, bump a None k = a k) by (intros k; unfold bump; lia).
      destruct (negb sp && cntr_eqb cur old) eqn:EQ.
      * apply andb_true_iff in EQ as [_ EQ]. apply cntr_eqb_eq in EQ as ->. injection Hs as <- <-.
        unfold inv; cbn [s_arr s_live s_calls]. split; [rewrite list_set_length; exact HL|]. split; [|split; [|split; [|split]]].
        -- apply drop_packet_nodup, HN.
        -- exact (calls_gone _ _ t _ HC EC).
        -- intros u d Hi. apply drop_call_in in Hi as [Hi _]. apply (call_num_mono a); [exact Hup|exact (HM u d Hi)].
        -- intros x y Hx Hy. apply drop_packet_incl in Hx, Hy. exact (HP x y Hx Hy).
        -- intros k c Hc. rewrite Hbb. pose proof (drop_packet_nslot W k _ _ Hlive) as Hd.
           assert (Hsl : in_slot W k (pid, cid) = Nat.eqb (idx W pid) k) by reflexivity. rewrite Hsl in Hd.
           destruct (Nat.eq_dec (idx W pid) k) as [<-|Hne].
           ++ rewrite nth_error_list_set_eq in Hc by exact Hidx. injection Hc as <-. rewrite Nat.eqb_refl in Hd.
              unfold removed in *. destruct (c_num old =? 0) eqn:E0; cbn [c_max c_num] in *.
              ** apply N.eqb_eq in E0. assert (Hz : nslot W (idx W pid) (drop_packet (s_live s) (pid, cid)) = 0%nat) by lia.
                 split; [lia|]. split; [exact Hrem|]. split; [lia|]. intros x Hx Hi. pose proof (nslot_zero W _ _ Hz x Hx). congruence.
              ** apply N.eqb_neq in E0. split; [lia|]. split; [lia|]. split; [lia|]. intros x Hx Hi. apply drop_packet_incl in Hx. exact (K4 x Hx Hi).
           ++ rewrite nth_error_list_set_neq in Hc by exact Hne. pose proof (proj2 (Nat.eqb_neq _ _) Hne) as Hq. rewrite Hq in Hd.
              destruct (HK k c Hc) as (L1 & L2 & L3 & L4). split; [lia|]. split; [lia|]. split; [lia|].
              intros x Hx Hi. apply drop_packet_incl in Hx. exact (L4 x Hx Hi).
      * injection Hs as <- <-.
        unfold inv; cbn [s_arr s_live s_calls]. split; [exact HL|]. split; [exact HN|].
        split; [exact (calls_again _ _ t _ (Removing pid cid cur (removed old new)) HC EC eq_refl)|]. split; [|split; [exact HP|]].
        -- intros u d [E|Hi]; [injection E as <- <-; cbn [call_num]; rewrite Hbb; split; [exact K2|exact Hrem]|].
           apply drop_call_in in Hi as [Hi _]. apply (call_num_mono a); [exact Hup|exact (HM u d Hi)].
        -- intros k c Hc. rewrite Hbb. exact (HK k c Hc).
Qed.

Lemma inv_run es : forall a s s' outs, 0 < W -> inv a s -> slots_ok W s es -> c_run W s es = Some (s', outs) ->
  (forall k, a k + N.of_nat (made_in W k outs) <= 65535) -> exists b, inv b s'.
Proof.
  induction es as [|e r IH]; intros a s s' outs HW HI HS HR HB; cbn [c_run slots_ok] in *.
  - injection HR as <- <-. exists a; exact HI.
  - destruct HS as [Hg HS]. destruct (c_step W s e) as [[s1 o]|] eqn:ES; [|discriminate]. cbn [bind fst snd] in HR.
    destruct (c_run W s1 r) as [[s2 o2]|] eqn:ER; [|discriminate]. cbn [bind fst snd] in HR. injection HR as -> <-.
    assert (HB2 : forall k, bump a o k + N.of_nat (made_in W k o2) <= 65535).
    { intros k. specialize (HB k). unfold bump. destruct o as [x|]; [|lia]. unfold made_in in HB. cbn [filter] in HB.
      unfold made_in, in_slot, idx. destruct (Nat.eqb (N.to_nat (fst x mod W)) k); cbn [length] in HB; lia. }
    assert (HI1 : inv (bump a o) s1).
    { apply (inv_step a s e s1 o HW HI ES Hg). intros k. specialize (HB2 k). lia. }
    exact (IH _ _ _ _ HW HI1 HS ER HB2).
Qed.

Lemma inv_start : inv (fun _ => 0) (c_start W).
Proof.
  unfold inv, c_start; cbn [s_arr s_live s_calls]. split; [apply repeat_length|]. split; [constructor|]. split; [split; cbn; tauto|]. split; [cbn; tauto|]. split; [cbn; tauto|].
  intros k c Hc. apply nth_error_In, repeat_spec in Hc as ->. cbn. split; [lia|]. split; [lia|]. split; [lia|tauto].
Qed.
End INV.
