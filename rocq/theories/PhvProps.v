(** C26 header stacks, C27 header unions, C28 validity flags, C49 cloning and recycling, C52 header assignment. *)
From Coq Require Import List Arith ZArith Bool Lia.
From Verif Require Import Base PhvModel PhvSpec PhvProofs PhvProofs2 PhvProofs3 PhvProofs4 PhvProofs5 PhvProofs6 PhvProofs7.
Import ListNotations.

Lemma reach_INV legacy d s : wf d -> reach legacy d s -> INV false d s.
Proof. intros W (l & OK & R). destruct (run_inv false legacy d l W OK ltac:(discriminate) (create d) (create_ok false d W)) as (s' & R' & I). congruence. Qed.
Lemma reach_ag_INV legacy d s : wf d -> reach_ag legacy d s -> INV true d s.
Proof. intros W (l & OK & AG & R). destruct (run_inv true legacy d l W OK (fun _ => AG) (create d) (create_ok true d W)) as (s' & R' & I). congruence. Qed.

(** ** C27 *)
Lemma count_one ag d s u m v c : wf d -> INV ag d s -> nth_error (ds_u d) u = Some m -> nth_error (p_u s) u = Some (v, c) ->
  forall l k, (forall i h, nth_error l i = Some h -> nth_error m (k + i) = Some h) -> n_valid s l = if v && (k <=? c) && (c <? k + length l) then 1 else 0.
Proof.
  intros W I M U. induction l as [|h l IH]; intros k L.
  - unfold n_valid. cbn [filter length]. destruct v; cbn [andb]; auto. destruct (Nat.leb_spec k c), (Nat.ltb_spec c (k + 0)); cbn; auto; lia.
  - unfold n_valid in *. cbn [filter]. specialize (IH (S k)).
    assert (ME : member d u k h) by (exists m; split; auto; rewrite <- (Nat.add_0_r k) at 1; apply L; auto). destruct (H_get _ _ _ h I) as (x & X); [eapply (wf_u_range _ W); eauto|]. pose proof (i_un _ _ _ I _ _ _ _ _ _ ME X U) as V. unfold H in X. rewrite X, V.
    assert (IH' : length (filter (fun h => match nth_error (p_h s) h with Some x => d_valid x | None => false end) l) = if v && (S k <=? c) && (c <? S k + length l) then 1 else 0).
    { apply IH. intros i h' E. replace (S k + i) with (k + S i) by lia. apply L; auto. }
    cbn [length]. replace (k + S (length l)) with (S k + length l) by lia. destruct v; cbn [andb] in *; [|exact IH']. destruct (Nat.eqb_spec k c); cbn [length]; rewrite IH'.
    + subst. destruct (Nat.leb_spec (S c) c); [lia|]. rewrite Nat.leb_refl. destruct (Nat.ltb_spec c (S c + length l)); cbn; auto. lia.
    + destruct (Nat.leb_spec k c), (Nat.leb_spec (S k) c); cbn; auto; lia.
Qed.
Theorem C27_union_at_most_one : forall (legacy : bool) (d : desc) (l : list op), wf d -> Forall (op_ok d) l ->
  exists s, run legacy d (create d) l = Some s /\
    forall u m, nth_error (ds_u d) u = Some m -> n_valid s m <= 1 /\
      forall h, get_valid_header d s u = Some h <-> In h m /\ exists x, header s h = Some x /\ d_valid x = true.
Proof.
  intros legacy d l W OK. destruct (run_inv false legacy d l W OK ltac:(discriminate) (create d) (create_ok false d W)) as (s & R & I). exists s. split; auto. intros u m M.
  destruct (nth_error_some (p_u s) u) as ([v c] & U); [rewrite (i_u _ _ _ I); eapply nth_error_lt; eauto|]. split.
  - rewrite (count_one false d s u m v c W I M U m 0) by auto. destruct (v && (0 <=? c) && (c <? 0 + length m)); auto.
  - intros h. unfold get_valid_header, header. rewrite U, M. split.
    + destruct v; [|discriminate]. intros E. split; [eapply nth_error_In; eauto|]. assert (ME : member d u c h) by (exists m; auto). destruct (H_get _ _ _ h I) as (x & X); [eapply (wf_u_range _ W); eauto|]. exists x. split; auto. rewrite (i_un _ _ _ I _ _ _ _ _ _ ME X U), Nat.eqb_refl. auto.
    + intros (Hi & x & X & V). apply In_nth_error in Hi as (i & Hi). assert (ME : member d u i h) by (exists m; auto). rewrite (i_un _ _ _ I _ _ _ _ _ _ ME X U) in V. apply andb_true_iff in V as [-> V]. apply Nat.eqb_eq in V. subst. auto.
Qed.

(** ** C28 *)
Theorem C28_validity_agrees : forall (legacy : bool) (d : desc) (l : list op), wf d -> Forall (op_ok d) l -> Forall (op_agree d) l ->
  exists s, run legacy d (create d) l = Some s /\ forall h x, ~ meta d h -> header s h = Some x -> d_vf x = d_valid x.
Proof.
  intros legacy d l W OK AG. destruct (run_inv true legacy d l W OK (fun _ => AG) (create d) (create_ok true d W)) as (s & R & I). exists s. split; auto. intros h x NM X. apply (i_ag _ _ _ I eq_refl h x NM X).
Qed.
(** Extracting and adding make the header valid, removing makes it invalid, and no other header outside its union changes *)
Theorem C28_effects : forall (legacy : bool) (d : desc) (s : phv) (h : nat) (t : hdesc), wf d -> reach legacy d s -> nth_error (ds_h d) h = Some t -> hd_meta t = false ->
  (forall vl vals, length vals = length (hd_fields t) -> vl mod 8 = 0 -> exists s' x, extract d s h vl vals = Some s' /\ header s' h = Some x /\ valid (header s' h) /\ map snd (d_fields x) = vals /\
     forall k, k <> h -> ~ siblings d h k -> header s' k = header s k) /\
  (exists s', add_header d s h = Some s' /\ (forall x, header s h = Some x -> d_valid x = false -> valid (header s' h) /\ exists y, header s' h = Some y /\ d_fields y = map (fun f => (fst f, 0%Z)) (d_fields x)) /\
     (forall x, header s h = Some x -> d_valid x = true -> s' = s) /\ forall k, k <> h -> ~ siblings d h k -> header s' k = header s k) /\
  (exists s', remove_header d s h = Some s' /\ (forall x, header s h = Some x -> d_valid x = true -> invalid (header s' h)) /\ (forall x, header s h = Some x -> d_valid x = false -> s' = s) /\ forall k, k <> h -> header s' k = header s k).
Proof.
  intros legacy d s h t W R T MT. pose proof (reach_INV _ _ _ W R) as I. destruct (H_get _ _ _ h I (nth_error_lt _ _ _ T)) as (x & X).
  assert (IV : is_valid t x = d_valid x) by (unfold is_valid; rewrite MT; auto).
  assert (OTH : forall s', frame s s' -> (forall k y, k <> h -> H s k = Some y -> H s' k = Some (after_valid d h k y)) -> forall k, k <> h -> ~ siblings d h k -> header s' k = header s k).
  { intros s' FR O k N NS. unfold header. fold (H s' k). fold (H s k). destruct (H s k) as [y|] eqn:Y; [|eapply H_none_frame; eauto]. rewrite (O k y N Y), after_valid_other; auto. }
  split; [|split].
  - intros vl vals L V. destruct (extract_ok false d s h vl vals t x W I T X L V) as (s' & fs & nb & E & I' & FR & HE & MS & O). exists s', (mk_hdr true true fs nb). split; auto. split; [exact HE|]. split; [eexists; split; [exact HE|auto]|]. split; auto.
  - destruct (add_header_ok false d s h t x W I T X) as (s' & E & I' & FR & A & B). exists s'. split; auto. split; [|split].
    + intros x' X' V. unfold header in *. fold (H s h) in X'. rewrite X in X'. injection X' as <-. rewrite IV in B. destruct (B V) as [B1 B2]. split; eexists; split; try exact B1; auto.
    + intros x' X' V. unfold header in *. fold (H s h) in X'. rewrite X in X'. injection X' as <-. apply A. congruence.
    + destruct (d_valid x) eqn:V; [rewrite A by congruence; auto|]. apply OTH; auto. apply B. congruence.
  - destruct (remove_header_ok false d s h t x W I T X) as (s' & E & I' & FR & A & B & C). exists s'. split; auto. split; [|split]; auto; intros x' X' V; unfold header in *; fold (H s h) in X'; rewrite X in X'; injection X' as <-.
    + eexists. split; [apply B; congruence|]. auto.
    + apply A. congruence.
Qed.

(** A concrete program: headers 0-2 form a stack, 3-4 a union, 5-6 a second union of the same shape, 7 has a
    variable-length field, 8 is metadata of the type of header 0; the two unions form a stack of unions; 9-11 a second stack. *)
Definition ex_t (n : nat) : hdesc := mk_hdesc false n [Some 4; Some (n + 12)].
Definition ex_d : desc :=
  mk_desc [ex_t 8; ex_t 8; ex_t 8; ex_t 0; ex_t 16; ex_t 0; ex_t 16; mk_hdesc false 1 [Some 8; None]; mk_hdesc true 8 [Some 4; Some 20]; ex_t 8; ex_t 8; ex_t 8]
          [[3; 4]; [5; 6]] [[0; 1; 2]; [9; 10; 11]] [[0; 1]].
Lemma ex_member u i h : member ex_d u i h -> (u, i, h) = (0, 0, 3) \/ (u, i, h) = (0, 1, 4) \/ (u, i, h) = (1, 0, 5) \/ (u, i, h) = (1, 1, 6).
Proof.
  intros (m & A & B). destruct u as [|[|u]]; cbn in A; [| |destruct u; discriminate]; injection A as <-; destruct i as [|[|i]]; cbn in B; try injection B as <-; auto; destruct i; discriminate.
Qed.
Lemma ex_meta h : meta ex_d h -> h = 8.
Proof. intros (t & A & B). do 12 (destruct h as [|h]; [cbn in A; injection A as <-; cbn in B; try discriminate; auto|]). destruct h; discriminate. Qed.
Lemma ex_wf : wf ex_d.
Proof.
  constructor.
  - intros h h' t t' A B. do 12 (destruct h as [|h]; [cbn in A; injection A as <-; do 12 (destruct h' as [|h']; [cbn in B; injection B as <-; cbn; auto; discriminate|]); destruct h'; discriminate|]). destruct h; discriminate.
  - intros h t A. do 12 (destruct h as [|h]; [cbn in A; injection A as <-; reflexivity|]). destruct h; discriminate.
  - intros u i u' i' h A B. apply ex_member in A, B. intuition congruence.
  - intros u i h A. split.
    + apply ex_member in A. cbn. intuition (match goal with E : (_, _, _) = _ |- _ => injection E as -> -> -> end; lia).
    + intros M. apply ex_meta in M. apply ex_member in A. intuition congruence.
  - intros k e A. destruct k as [|[|k]]; cbn in A; [| |destruct k; discriminate]; injection A as <-; repeat constructor; cbn; intuition discriminate.
  - intros k e h h' A B C. assert (S1 : In h [0; 1; 2; 9; 10; 11] /\ In h' [0; 1; 2; 9; 10; 11]) by (destruct k as [|[|k]]; cbn in A; [| |destruct k; discriminate]; injection A as <-; cbn in *; intuition auto).
    destruct S1 as [D E]. split; [|split].
    + exists (ex_t 8), (ex_t 8). cbn in D, E. split; [|split]; auto; [destruct D as [<-|[<-|[<-|[<-|[<-|[<-|[]]]]]]]|destruct E as [<-|[<-|[<-|[<-|[<-|[<-|[]]]]]]]]; reflexivity.
    + intros (u & i & M). apply ex_member in M. cbn in D. intuition congruence.
    + intros M. apply ex_meta in M. cbn in D. intuition congruence.
  - intros k e A. destruct k as [|k]; cbn in A; [|destruct k; discriminate]. injection A as <-. repeat constructor; cbn; intuition discriminate.
  - intros k e u u' A B C. destruct k as [|k]; cbn in A; [|destruct k; discriminate]. injection A as <-. cbn in B, C.
    assert (ST : forall a b, In (a, b) [(3, 3); (3, 5); (5, 3); (5, 5); (4, 4); (4, 6); (6, 4); (6, 6)] -> same_type ex_d a b).
    { intros a b IN. cbn in IN. repeat (destruct IN as [E|IN]; [injection E as <- <-; eexists; eexists; split; [reflexivity|split; reflexivity]|]). contradiction. }
    destruct B as [<-|[<-|[]]], C as [<-|[<-|[]]]; eexists; eexists; (split; [reflexivity|split; [reflexivity|]]); repeat constructor; apply ST; cbn; auto 10.
Qed.

(** Finding: copying between two members of one union, and copying from metadata, leave the two flags in disagreement;
    so does PHV::reset_headers. *)
Theorem C28_sibling_assignment_refuted :
  ~ (forall legacy d l s, wf d -> Forall (op_ok d) l -> (forall o, In o l -> match o with OAssign a b => meta d b -> meta d a | _ => True end) -> run legacy d (create d) l = Some s -> forall h x, ~ meta d h -> header s h = Some x -> d_vf x = d_valid x).
Proof.
  intros C. set (d := mk_desc [ex_t 0; ex_t 0] [[0; 1]] [] []). assert (MB : forall u i h, member d u i h -> u = 0 /\ i = h /\ h < 2).
  { intros u i h (m & A & B). destruct u as [|u]; [|destruct u; discriminate]. cbn in A. injection A as <-. destruct i as [|[|i]]; cbn in B; [injection B as <-; auto|injection B as <-; auto|destruct i; discriminate]. }
  assert (MM : forall h, ~ meta d h) by (intros h (t & A & B); do 2 (destruct h as [|h]; [cbn in A; injection A as <-; discriminate|]); destruct h; discriminate).
  assert (W : wf d).
  { constructor.
    - intros h h' t t' A B _. do 2 (destruct h as [|h]; [cbn in A; injection A as <-; do 2 (destruct h' as [|h']; [cbn in B; injection B as <-; auto|]); destruct h'; discriminate|]). destruct h; discriminate.
    - intros h t A. do 2 (destruct h as [|h]; [cbn in A; injection A as <-; reflexivity|]). destruct h; discriminate.
    - intros u i u' i' h A B. apply MB in A, B. intuition lia.
    - intros u i h A. split; [apply MB in A; cbn; tauto|apply MM].
    - intros [|k] e A; discriminate.
    - intros [|k] e h h' A; discriminate.
    - intros [|k] e A; discriminate.
    - intros [|k] e u u' A; discriminate. }
  assert (OK : Forall (op_ok d) [OExtract 1 0 [5%Z; 7%Z]; OAssign 0 1]). { repeat constructor; cbn; [exists (ex_t 0); auto|]. exists (ex_t 0), (ex_t 0). auto. }
  assert (Q : forall o, In o [OExtract 1 0 [5%Z; 7%Z]; OAssign 0 1] -> match o with OAssign a b => meta d b -> meta d a | _ => True end) by (intros o [<-|[<-|[]]]; auto; intros M; exfalso; apply (MM 1); auto).
  epose proof (C false d [OExtract 1 0 [5%Z; 7%Z]; OAssign 0 1] _ W OK Q eq_refl 0 _ (MM 0) eq_refl) as C'. vm_compute in C'. discriminate.
Qed.
Theorem C28_assignment_from_metadata_refuted :
  ~ (forall legacy d l s, wf d -> Forall (op_ok d) l -> (forall o, In o l -> match o with OAssign a b => ~ siblings d a b | _ => True end) -> run legacy d (create d) l = Some s -> forall h x, ~ meta d h -> header s h = Some x -> d_vf x = d_valid x).
Proof.
  intros C. assert (OK : Forall (op_ok ex_d) [OAssign 0 8]) by (repeat constructor; cbn; exists (ex_t 8), (mk_hdesc true 8 [Some 4; Some 20]); auto).
  assert (Q : forall o, In o [OAssign 0 8] -> match o with OAssign a b => ~ siblings ex_d a b | _ => True end).
  { intros o [<-|[]]. intros (u & i & i' & A & _). apply ex_member in A. intuition congruence. }
  assert (NM : ~ meta ex_d 0) by (intros M; apply ex_meta in M; discriminate). epose proof (C false ex_d [OAssign 0 8] _ ex_wf OK Q eq_refl 0 _ NM eq_refl) as C'. vm_compute in C'. discriminate.
Qed.
Theorem C28_reset_headers_refuted : ~ (forall legacy d s, wf d -> reach_ag legacy d s -> forall h x, ~ meta d h -> header (reset_headers s) h = Some x -> d_vf x = d_valid x).
Proof.
  intros C. assert (R : reach_ag false ex_d (match run false ex_d (create ex_d) [OAdd 0] with Some s => s | None => create ex_d end)) by (exists [OAdd 0]; repeat constructor; cbn; lia).
  assert (NM : ~ meta ex_d 0) by (intros M; apply ex_meta in M; discriminate). epose proof (C false ex_d _ ex_wf R 0 _ NM eq_refl) as C'. vm_compute in C'. discriminate.
Qed.

(** ** C26 *)
Definition same_but_stack (d : desc) (k : nat) (e : list nat) (s s' : phv) : Prop :=
  (forall h, ~ In h e -> header s' h = header s h) /\ (forall j, j <> k -> nth_error (p_s s') j = nth_error (p_s s) j) /\ p_us s' = p_us s /\ p_u s' = p_u s.
Lemma only_same d k e s s1 n : only e s s1 -> same_but_stack d k e s (set_s s1 k n).
Proof. intros ((A & B & _) & C & D). split; [exact D|]. split; [|split; auto]. intros j N. cbn. rewrite nth_error_list_set_neq by auto. rewrite A. auto. Qed.
Lemma set_s_next ag d s s1 k e n : INV ag d s -> only e s s1 -> nth_error (ds_s d) k = Some e -> nth_error (p_s (set_s s1 k n)) k = Some n.
Proof. intros I ((A & _) & _) K. cbn. rewrite A. apply nth_error_list_set_eq. rewrite (i_s _ _ _ I). eapply nth_error_lt; eauto. Qed.
Theorem C26_push_front : forall (legacy : bool) d s k e next n, wf d -> reach legacy d s -> nth_error (ds_s d) k = Some e -> e <> [] -> nth_error (p_s s) k = Some next ->
  exists s', push_front false d s k n = Some s' /\ nth_error (p_s s') k = Some (Nat.min (length e) (next + n)) /\ same_but_stack d k e s s' /\
    forall i, i < length e -> (n <= i -> element e s' i = element e s (i - n)) /\ (i < n -> invalid (element e s' i)).
Proof.
  intros legacy d s k e next n W R K NE N. pose proof (reach_INV _ _ _ W R) as I. destruct (push_ok false false d s k e next n W I K NE N) as (s1 & E & _ & _ & O & F). eexists. split; [exact E|].
  split; [eapply set_s_next; eauto|]. split; [apply only_same; auto|]. exact F.
Qed.
Theorem C26_pop_front : forall (legacy : bool) d s k e next n, wf d -> reach legacy d s -> nth_error (ds_s d) k = Some e -> nth_error (p_s s) k = Some next ->
  exists s', pop_front false d s k n = Some s' /\ nth_error (p_s s') k = Some (next - n) /\ same_but_stack d k e s s' /\
    forall i, i < length e -> (i + n < length e -> element e s' i = element e s (i + n)) /\ (length e <= i + n -> 0 < n -> invalid (element e s' i)).
Proof.
  intros legacy d s k e next n W R K N. pose proof (reach_INV _ _ _ W R) as I. destruct (pop_ok false false d s k e next n W I K N) as (s1 & E & _ & _ & O & F). eexists. split; [exact E|].
  split; [eapply set_s_next; eauto|]. split; [apply only_same; auto|]. exact F.
Qed.
(** The legacy (P4_14) implementation: only the elements below [next] take part, pushed elements are valid *)
Theorem C26_legacy_push_front : forall (legacy : bool) d s k e next n, wf d -> reach legacy d s -> nth_error (ds_s d) k = Some e -> e <> [] -> nth_error (p_s s) k = Some next ->
  exists s', push_front true d s k n = Some s' /\ nth_error (p_s s') k = Some (Nat.min (length e) (next + n)) /\ same_but_stack d k e s s' /\
    forall i, i < length e -> (n <= i < next + n -> element e s' i = element e s (i - n)) /\ (i < n -> valid (element e s' i)) /\ (next + n <= i -> element e s' i = element e s i).
Proof.
  intros legacy d s k e next n W R K NE N. pose proof (reach_INV _ _ _ W R) as I. destruct (push_ok false true d s k e next n W I K NE N) as (s1 & E & _ & _ & O & F). eexists. split; [exact E|].
  split; [eapply set_s_next; eauto|]. split; [apply only_same; auto|]. exact F.
Qed.
Theorem C26_legacy_pop_front : forall (legacy : bool) d s k e next n, wf d -> reach legacy d s -> nth_error (ds_s d) k = Some e -> nth_error (p_s s) k = Some next ->
  exists s', pop_front true d s k n = Some s' /\ nth_error (p_s s') k = Some (next - n) /\ same_but_stack d k e s s' /\
    forall i, i < length e -> (i + n < next -> element e s' i = element e s (i + n)) /\ (i < next <= i + n -> invalid (element e s' i)) /\ (next <= i -> element e s' i = element e s i).
Proof.
  intros legacy d s k e next n W R K N. pose proof (reach_INV _ _ _ W R) as I. destruct (pop_ok false true d s k e next n W I K N) as (s1 & E & _ & _ & O & F). eexists. split; [exact E|].
  split; [eapply set_s_next; eauto|]. split; [apply only_same; auto|]. exact F.
Qed.
(** Stacks of unions: the elements are shifted; what remains at the other end is not made invalid (finding below) *)
Theorem C26_union_stack_shift : forall (legacy : bool) d s k e next n, wf d -> reach legacy d s -> nth_error (ds_us d) k = Some e -> nth_error (p_us s) k = Some next ->
  (exists s', pop_front_u false d s k n = Some s' /\ nth_error (p_us s') k = Some (next - n) /\ forall i, i + n < length e -> uelement d e s' i = uelement d e s (i + n)) /\
  (e <> [] -> exists s', push_front_u false d s k n = Some s' /\ nth_error (p_us s') k = Some (Nat.min (length e) (next + n)) /\ forall i, i < length e -> n <= i -> uelement d e s' i = uelement d e s (i - n)).
Proof.
  intros legacy d s k e next n W R K N. pose proof (reach_INV _ _ _ W R) as I. split.
  - destruct (pop_u_ok false false d s k e next n W I K N) as (s1 & E & _ & ((_ & O & _) & _) & F). eexists. split; [exact E|]. split; [|intros i L; apply (F i); lia]. cbn. apply nth_error_list_set_eq. rewrite O, (i_us _ _ _ I). eapply nth_error_lt; eauto.
  - intros NE. destruct (push_u_ok false false d s k e next n W I K NE N) as (s1 & E & _ & ((_ & O & _) & _) & F). eexists. split; [exact E|]. split; [|intros i L; apply (F i); lia]. cbn. apply nth_error_list_set_eq. rewrite O, (i_us _ _ _ I). eapply nth_error_lt; eauto.
Qed.
Theorem C26_union_stack_pop_invalidates_refuted :
  ~ (forall legacy d s k e next n s', wf d -> reach legacy d s -> nth_error (ds_us d) k = Some e -> nth_error (p_us s) k = Some next -> pop_front_u legacy d s k n = Some s' ->
       forall i u m h, nth_error e i = Some u -> length e <= i + n -> nth_error (ds_u d) u = Some m -> In h m -> invalid (header s' h)).
Proof.
  intros C. set (s := match run false ex_d (create ex_d) [OExtract 3 0 [1%Z; 2%Z]] with Some s => s | None => create ex_d end).
  assert (R : reach false ex_d s) by (exists [OExtract 3 0 [1%Z; 2%Z]]; split; [repeat constructor; cbn; exists (ex_t 0); auto|reflexivity]).
  assert (L2 : length [0; 1] <= 1 + 1) by (cbn; lia). assert (I5 : In 5 [5; 6]) by (cbn; auto). epose proof (C false ex_d s 0 [0; 1] 0 1 _ ex_wf R eq_refl eq_refl eq_refl 1 1 [5; 6] 5 eq_refl L2 eq_refl I5) as C'. destruct C' as (y & E & V & _). vm_compute in E. injection E as <-. discriminate.
Qed.
Theorem C26_push_on_empty_stack_refuted : ~ (forall legacy d s k n, wf d -> reach legacy d s -> k < length (ds_s d) -> push_front legacy d s k n <> None).
Proof.
  intros C. set (d := mk_desc [] [] [[]] []). assert (W : wf d).
  { assert (MB : forall u i h, ~ member d u i h) by (intros [|u] i h (m & A & _); discriminate). constructor.
    - intros [|h] h' t t' A; discriminate.
    - intros [|h] t A; discriminate.
    - intros u i u' i' h A. exfalso. apply (MB _ _ _ A).
    - intros u i h A. exfalso. apply (MB _ _ _ A).
    - intros [|[|k]] e A; try discriminate. injection A as <-. constructor.
    - intros [|[|k]] e h h' A B; try discriminate. injection A as <-. destruct B.
    - intros [|k] e A; discriminate.
    - intros [|k] e u u' A; discriminate. }
  apply (C false d (create d) 0 1 W); [exists []; split; [constructor|reflexivity]|cbn; lia|reflexivity].
Qed.

(** ** C52 *)
Theorem C52_assign_header : forall (legacy : bool) d s a b y, wf d -> reach legacy d s -> same_type d a b -> ~ meta d b -> header s b = Some y ->
  exists s' x, assign_header d s a b = Some s' /\ header s' a = Some x /\ d_valid x = d_valid y /\ (d_valid y = true -> d_fields x = d_fields y /\ d_nb x = d_nb y) /\
    (forall h, h <> a -> ~ siblings d a h -> header s' h = header s h).
Proof.
  intros legacy d s a b y W R ST NM Y. pose proof (reach_INV _ _ _ W R) as I. destruct (assign_header_ok false d s a b y W I ST ltac:(discriminate) Y) as (ts & s' & T & E & I' & FR & A & B).
  destruct (H_get _ _ _ a I) as (x & X); [apply (same_type_range _ _ _ ST)|].
  assert (IV : is_valid ts y = d_valid y) by (unfold is_valid; destruct (hd_meta ts) eqn:M; auto; exfalso; apply NM; eapply meta_intro; eauto). rewrite IV in A, B. destruct (d_valid y) eqn:V.
  - destruct (B eq_refl) as ((vf & B1) & B2). exists s', (mk_hdr true vf (d_fields y) (d_nb y)). split; auto. split; [exact B1|]. split; auto. split; auto. intros h N NS. unfold header. fold (H s' h). fold (H s h).
    destruct (H s h) as [z|] eqn:Z; [|eapply H_none_frame; eauto]. rewrite (B2 h z N Z), after_valid_other; auto.
  - destruct (A eq_refl) as (A1 & A2). exists s', (with_valid x false). split; auto. split; [apply (A1 x X)|]. split; auto. split; [discriminate|]. intros h N NS. apply A2; auto.
Qed.
Theorem C52_assign_union : forall (legacy : bool) d s a b ma mb, wf d -> reach legacy d s -> a <> b -> nth_error (ds_u d) a = Some ma -> nth_error (ds_u d) b = Some mb -> Forall2 (same_type d) ma mb ->
  exists s', assign_union d s a b = Some s' /\
    (forall i x y z, nth_error ma i = Some x -> nth_error mb i = Some y -> header s y = Some z -> exists w, header s' x = Some w /\ d_valid w = d_valid z /\ (d_valid z = true -> d_fields w = d_fields z /\ d_nb w = d_nb z)) /\
    (forall h, ~ In h ma -> header s' h = header s h) /\ n_valid s' ma <= 1.
Proof.
  intros legacy d s a b ma mb W R N A B F2. pose proof (reach_INV _ _ _ W R) as I. destruct (assign_union_copy false d s a b ma mb W I N A B F2) as (s' & E & I' & FR & C & D). exists s'. split; auto. split; [exact C|]. split; auto.
  destruct (nth_error_some (p_u s') a) as ([v c] & U); [rewrite (i_u _ _ _ I'); eapply nth_error_lt; eauto|]. rewrite (count_one false d s' a ma v c W I' A U ma 0) by auto. destruct (v && (0 <=? c) && (c <? 0 + length ma)); auto.
Qed.
Theorem C52_assign_stack : forall (legacy : bool) d s a b e e' n, wf d -> reach legacy d s -> nth_error (ds_s d) a = Some e -> nth_error (ds_s d) b = Some e' -> Forall2 (same_type d) e e' -> (forall x, In x e -> ~ In x e') -> nth_error (p_s s) b = Some n ->
  exists s', assign_stack d s a b = Some s' /\ nth_error (p_s s') a = Some n /\
    (forall i x y z, nth_error e i = Some x -> nth_error e' i = Some y -> header s y = Some z -> exists w, header s' x = Some w /\ d_valid w = d_valid z /\ (d_valid z = true -> d_fields w = d_fields z /\ d_nb w = d_nb z)) /\
    (forall h, ~ In h e -> header s' h = header s h) /\ (forall j, j <> a -> nth_error (p_s s') j = nth_error (p_s s) j).
Proof.
  intros legacy d s a b e e' n W R A B F2 DJ N. pose proof (reach_INV _ _ _ W R) as I. destruct (assign_stack_copy false d s a b e e' W I A B F2 DJ) as (s' & n' & E & I' & N' & PS & C & D). rewrite N in N'. injection N' as <-. exists s'. split; auto. rewrite PS. split; [apply nth_error_list_set_eq; rewrite (i_s _ _ _ I); eapply nth_error_lt; eauto|].
  split; [exact C|]. split; auto. intros j J. apply nth_error_list_set_neq. auto.
Qed.
Theorem C52_assign_union_stack : forall (legacy : bool) d s a b e e' n, wf d -> reach legacy d s -> nth_error (ds_us d) a = Some e -> nth_error (ds_us d) b = Some e' -> Forall2 (unions_match d) e e' -> (forall x, In x e -> ~ In x e') -> nth_error (p_us s) b = Some n ->
  exists s', assign_ustack d s a b = Some s' /\ nth_error (p_us s') a = Some n /\
    (forall k u v, nth_error e k = Some u -> nth_error e' k = Some v -> exists mu mv, nth_error (ds_u d) u = Some mu /\ nth_error (ds_u d) v = Some mv /\
       forall i x y z, nth_error mu i = Some x -> nth_error mv i = Some y -> header s y = Some z -> exists w, header s' x = Some w /\ d_valid w = d_valid z /\ (d_valid z = true -> d_fields w = d_fields z /\ d_nb w = d_nb z)) /\
    (forall h, (forall u i, In u e -> ~ member d u i h) -> header s' h = header s h).
Proof.
  intros legacy d s a b e e' n W R A B F2 DJ N. pose proof (reach_INV _ _ _ W R) as I. destruct (assign_ustack_copy false d s a b e e' W I A B F2 DJ) as (s' & n' & E & I' & N' & PS & C & D). rewrite N in N'. injection N' as <-. exists s'. split; auto. rewrite PS. split; [apply nth_error_list_set_eq; rewrite (i_us _ _ _ I); eapply nth_error_lt; eauto|].
  split; [exact C|exact D].
Qed.

(** ** C49 *)
Lemma eqx_view d s r : wf d -> INV true d s -> INV true d r -> eqx [] d s r -> same_view d s r.
Proof.
  intros W I J E. constructor; try apply E.
  - intros h t T. destruct (H_get _ _ _ h I (nth_error_lt _ _ _ T)) as (x & X). destruct (H_get _ _ _ h J (nth_error_lt _ _ _ T)) as (y & Y). exists x, y. split; auto. split; auto. destruct (e_h _ _ _ _ E _ _ _ _ T X Y) as (A & B & C). split; auto.
  - intros u. unfold get_valid_header. pose proof (e_u _ _ _ _ E u) as U. destruct (nth_error (p_u s) u) as [[v c]|], (nth_error (p_u r) u) as [[v' c']|]; try contradiction; auto. destruct U as [U1 U2]. cbn in U1, U2. subst v'. destruct v; auto. rewrite U2; auto.
Qed.
Lemma blind_sim legacy d l : Forall (op_blind legacy d) l -> Forall (op_sim legacy d) l.
Proof. intros F. eapply Forall_impl; [|exact F]. intros o. destruct o; auto. Qed.
(** Whatever the pool hands out (new, or recycled after any use), the clone shows what the original shows, and goes on
    to behave like the original under every further operation sequence *)
Theorem C49_clone_equal : forall (legacy : bool) d s dst l, wf d -> reach_ag legacy d s -> (dst = create d \/ exists s0, reach_ag legacy d s0 /\ recycle d s0 = Some dst) ->
  Forall (op_ok d) l -> Forall (op_agree d) l -> Forall (op_blind legacy d) l ->
  same_view d (copy_headers d dst s) s /\
  exists s1 s2, run legacy d s l = Some s1 /\ run legacy d (copy_headers d dst s) l = Some s2 /\ same_view d s2 s1.
Proof.
  intros legacy d s dst l W R D OK AG BL. pose proof (reach_ag_INV _ _ _ W R) as I.
  assert (B : blank d dst). { destruct D as [->|(s0 & R0 & E)]; [apply create_blank; auto|]. pose proof (reach_ag_INV _ _ _ W R0) as I0. destruct (recycle_blank true d s0 W I0 I0) as (s' & E' & B & _). congruence. }
  destruct (copy_ok d dst s W B I) as [IC EC]. split; [apply eqx_view; auto|]. destruct (run_eqv legacy d l W OK AG (blind_sim _ _ _ BL) _ _ IC I EC) as (s2 & s1 & E2 & E1 & I2 & I1 & E). exists s1, s2. split; auto. split; auto. apply eqx_view; auto.
Qed.
(** Recycling leaves nothing valid *)
Theorem C49_recycled : forall (legacy : bool) d s, wf d -> reach_ag legacy d s -> exists s', recycle d s = Some s' /\
  (forall h x, header s' h = Some x -> d_valid x = false /\ d_vf x = false) /\ (forall u h, get_valid_header d s' u <> Some h) /\
  (forall k n, nth_error (p_s s') k = Some n -> n = 0) /\ (forall k n, nth_error (p_us s') k = Some n -> n = 0).
Proof.
  intros legacy d s W R. pose proof (reach_ag_INV _ _ _ W R) as I. destruct (recycle_blank true d s W I I) as (s' & E & [I' B] & U & S1 & S2 & _). exists s'. split; auto. split; [exact B|]. split; auto. intros u h G. unfold get_valid_header in G.
  destruct (nth_error (p_u s') u) as [[v c]|] eqn:Q; [|discriminate]. destruct v; [|discriminate]. destruct (nth_error (ds_u d) u) as [m|] eqn:M; [|discriminate].
  assert (true = false); [|discriminate]. apply (U u true c Q). rewrite M. intros C. injection C as ->. destruct c; discriminate.
Qed.
(** A recycled vector whose metadata are reset behaves like a new one *)
Theorem C49_recycled_like_new : forall (legacy : bool) d s l, wf d -> (forall u, nth_error (ds_u d) u <> Some []) -> reach_ag legacy d s -> Forall (op_ok d) l -> Forall (op_agree d) l -> Forall (op_blind legacy d) l ->
  exists s0 s1 s2, recycle d s = Some s0 /\ run legacy d (reset_metadata d s0) l = Some s1 /\ run legacy d (create d) l = Some s2 /\ same_view d s1 s2.
Proof.
  intros legacy d s l W NE R OK AG BL. pose proof (reach_ag_INV _ _ _ W R) as I. destruct (recycled_fresh d s W NE I) as (s0 & E & I0 & E0). destruct (run_eqv legacy d l W OK AG (blind_sim _ _ _ BL) _ _ I0 (create_ok true d W) E0) as (s1 & s2 & A & B & I1 & I2 & E1).
  exists s0, s1, s2. split; auto. split; auto. split; auto. apply eqx_view; auto.
Qed.
(** Finding: a header with a variable-length field that is removed and added again keeps its old length in the original, but
    not in a clone. *)
Theorem C49_readded_varbit_refuted :
  ~ (forall legacy d s l s1 s2, wf d -> reach_ag legacy d s -> Forall (op_ok d) l -> Forall (op_agree d) l -> run legacy d s l = Some s1 -> run legacy d (copy_headers d (create d) s) l = Some s2 -> same_view d s2 s1).
Proof.
  intros C. set (s := match run false ex_d (create ex_d) [OExtract 7 16 [9%Z; 10%Z]; ORemove 7] with Some s => s | None => create ex_d end).
  assert (OKS : Forall (op_ok ex_d) [OExtract 7 16 [9%Z; 10%Z]; ORemove 7]) by (constructor; [exists (mk_hdesc false 1 [Some 8; None]); auto|constructor; [cbn; lia|constructor]]).
  assert (R : reach_ag false ex_d s) by (exists [OExtract 7 16 [9%Z; 10%Z]; ORemove 7]; split; [exact OKS|split; [repeat constructor|reflexivity]]).
  assert (OK : Forall (op_ok ex_d) [OAdd 7]) by (repeat constructor; cbn; lia).
  assert (AG : Forall (op_agree ex_d) [OAdd 7]) by (repeat constructor). epose proof (C false ex_d s [OAdd 7] _ _ ex_wf R OK AG eq_refl eq_refl) as C'. destruct C' as [C' _ _ _]. edestruct (C' 7 _ eq_refl) as (x & y & X & Y & (_ & _ & E)). vm_compute in X, Y. injection X as <-. injection Y as <-. specialize (E eq_refl). discriminate.
Qed.

(** ** Hypotheses are met *)
Definition ex_ops : list op :=
  [OExtract 0 0 [1%Z; 2%Z]; OExtractNext 0 0 [3%Z; 4%Z]; OExtractNext 0 0 [5%Z; 6%Z]; OExtract 3 0 [1%Z; 7%Z]; OExtract 4 0 [2%Z; 9%Z]; OAdd 6; OAssignU 1 0; OAssign 9 1; OAssignS 1 0; OPush 0 1; OPop 1 2; OPushU 0 1; OPopU 0 1; ORemove 4; OExtract 7 16 [9%Z; 11%Z]; OSet 8 1 77%Z].
Example ex_ok : Forall (op_ok ex_d) ex_ops.
Proof.
  assert (T : forall a b, In (a, b) [(5, 3); (6, 4); (9, 1); (9, 0); (10, 1); (11, 2)] -> same_type ex_d a b).
  { intros a b IN. cbn in IN. repeat (destruct IN as [E|IN]; [injection E as <- <-; eexists; eexists; split; [reflexivity|split; reflexivity]|]). contradiction. }
  assert (NX : forall h t, In h [0; 1; 2] -> nth_error (ds_h ex_d) h = Some t -> 2 = length (hd_fields t)) by (intros h t IN E; cbn in IN; destruct IN as [<-|[<-|[<-|[]]]]; injection E as <-; reflexivity).
  repeat (apply Forall_cons || apply Forall_nil); cbn [op_ok].
  - exists (ex_t 8). auto.
  - exists [0; 1; 2]. split; auto.
  - exists [0; 1; 2]. split; auto.
  - exists (ex_t 0). auto.
  - exists (ex_t 16). auto.
  - cbn. lia.
  - eexists. eexists. split; [reflexivity|split; [reflexivity|]]. repeat constructor; apply T; cbn; auto.
  - apply T. cbn. auto.
  - eexists. eexists. split; [reflexivity|split; [reflexivity|]]. repeat constructor; apply T; cbn; auto 10.
  - eexists. split; [reflexivity|discriminate].
  - cbn. lia.
  - eexists. split; [reflexivity|discriminate].
  - cbn. lia.
  - cbn. lia.
  - eexists. split; [reflexivity|]. auto.
  - eexists. split; [reflexivity|]. cbn. lia.
Qed.
Example ex_agree : Forall (op_agree ex_d) ex_ops.
Proof.
  repeat (apply Forall_cons || apply Forall_nil); cbn [op_agree]; auto. split; [intros (u & i & i' & A & B & _); apply ex_member in A; intuition congruence|intros M; apply ex_meta in M; discriminate].
Qed.
Example ex_blind : Forall (op_blind false ex_d) ex_ops.
Proof. repeat (apply Forall_cons || apply Forall_nil); cbn [op_blind]; auto. intros t E. injection E as <-. reflexivity. Qed.
Definition ex_s : phv := match run false ex_d (create ex_d) ex_ops with Some s => s | None => create ex_d end.
Example ex_run : (map (fun x => (d_valid x, map snd (d_fields x))) (p_h ex_s), p_u ex_s, p_s ex_s, p_us ex_s) =
  ([(false, [0; 0]); (true, [3; 4]); (true, [5; 6]); (false, [1; 7]); (false, [2; 9]); (false, [0; 0]); (true, [2; 9]); (true, [9; 11]); (false, [0; 77]); (false, [0; 0]); (false, [5; 6]); (false, [3; 4])]%Z,
   [(false, 1); (true, 1)], [3; 0], [0]).
Proof. vm_compute. reflexivity. Qed.
Example ex_reach : reach_ag false ex_d ex_s.
Proof. exists ex_ops. split; [exact ex_ok|split; [exact ex_agree|vm_compute; reflexivity]]. Qed.

Print Assumptions C26_push_front. Print Assumptions C26_pop_front. Print Assumptions C26_legacy_push_front. Print Assumptions C26_legacy_pop_front. Print Assumptions C26_union_stack_shift.
Print Assumptions C26_union_stack_pop_invalidates_refuted. Print Assumptions C26_push_on_empty_stack_refuted. Print Assumptions C27_union_at_most_one. Print Assumptions C28_validity_agrees. Print Assumptions C28_effects.
Print Assumptions C28_sibling_assignment_refuted. Print Assumptions C28_assignment_from_metadata_refuted. Print Assumptions C28_reset_headers_refuted.
Print Assumptions C52_assign_header. Print Assumptions C52_assign_union. Print Assumptions C52_assign_stack. Print Assumptions C52_assign_union_stack.
Print Assumptions C49_clone_equal. Print Assumptions C49_recycled. Print Assumptions C49_recycled_like_new. Print Assumptions C49_readded_varbit_refuted.
