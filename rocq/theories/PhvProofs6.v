(** Header vectors that differ only in the contents of invalid headers behave alike. *)
From Coq Require Import List Arith ZArith Bool Lia.
From Verif Require Import Base PhvModel PhvSpec PhvProofs PhvProofs2 PhvProofs3 PhvProofs4 PhvProofs5.
Import ListNotations.

(** Same validity everywhere, same contents of valid headers and metadata; the contents of the headers in [X] are ignored. *)
Definition heq (X : list nat) (h : nat) (t : hdesc) (x y : hdr) : Prop := d_valid x = d_valid y /\ d_vf x = d_vf y /\ (is_valid t x = true -> ~ In h X -> x = y).
Definition ueq (a b : option (bool * nat)) : Prop :=
  match a, b with Some a, Some b => fst a = fst b /\ (fst a = true -> snd a = snd b) | None, None => True | _, _ => False end.
Record eqx (X : list nat) (d : desc) (s r : phv) : Prop := {
  e_len : length (p_h s) = length (ds_h d) /\ length (p_h r) = length (ds_h d);
  e_u : forall u, ueq (nth_error (p_u s) u) (nth_error (p_u r) u);
  e_s : p_s s = p_s r; e_us : p_us s = p_us r;
  e_h : forall h t x y, nth_error (ds_h d) h = Some t -> H s h = Some x -> H r h = Some y -> heq X h t x y }.
Definition oeqv (X : list nat) (d : desc) (a b : option phv) : Prop :=
  match a, b with Some s, Some r => eqx X d s r | None, None => True | _, _ => False end.
Lemma eqx_get X d s r h : eqx X d s r -> match H s h, H r h with Some x, Some y => exists t, nth_error (ds_h d) h = Some t /\ heq X h t x y | None, None => True | _, _ => False end.
Proof.
  intros E. destruct (e_len _ _ _ _ E) as [A B]. destruct (H s h) as [x|] eqn:Ex.
  - pose proof (nth_error_lt _ _ _ Ex) as L. destruct (nth_error_some (ds_h d) h) as (t & T); [lia|]. destruct (nth_error_some (p_h r) h) as (y & Y); [lia|]. fold (H r h) in Y. rewrite Y. exists t. split; auto. eapply e_h; eauto.
  - assert (Y : H r h = None) by (unfold H in *; apply nth_error_None; apply nth_error_None in Ex; lia). rewrite Y. auto.
Qed.
Lemma eqx_u X d s r u : eqx X d s r -> match nth_error (p_u s) u, nth_error (p_u r) u with Some a, Some b => fst a = fst b /\ (fst a = true -> snd a = snd b) | None, None => True | _, _ => False end.
Proof. intros E. apply (e_u _ _ _ _ E u). Qed.
Lemma bind_eqv X Y d (a b : option phv) f g : oeqv X d a b -> (forall s r, eqx X d s r -> oeqv Y d (f s) (g r)) -> oeqv Y d (bind a f) (bind b g).
Proof. intros E F. destruct a, b; cbn in *; auto; contradiction. Qed.
Lemma set_h_eqv X Y d s r h x y t : eqx X d s r -> nth_error (ds_h d) h = Some t -> heq Y h t x y -> (forall k, In k X -> k = h \/ In k Y) -> eqx Y d (set_h s h x) (set_h r h y).
Proof.
  intros E T Q XY. destruct (e_len _ _ _ _ E) as [A B]. constructor; try apply E; cbn [set_h p_h]; rewrite ?list_set_length; auto.
  intros k t' z w T' Z K. destruct (Nat.eq_dec h k) as [->|N].
  - rewrite H_set_eq in Z by (rewrite A; eapply nth_error_lt; eauto). rewrite H_set_eq in K by (rewrite B; eapply nth_error_lt; eauto). congruence.
  - rewrite H_set_neq in Z by auto. rewrite H_set_neq in K by auto. destruct (e_h _ _ _ _ E _ _ _ _ T' Z K) as (P1 & P2 & P3). split; auto. split; auto. intros V NI. apply P3; auto. intros I. destruct (XY _ I); auto.
Qed.
Lemma ueq_set X d s r u x y : eqx X d s r -> ueq (Some x) (Some y) -> forall k, ueq (nth_error (list_set (p_u s) u x) k) (nth_error (list_set (p_u r) u y) k).
Proof.
  intros E Q k. pose proof (e_u _ _ _ _ E k) as G. assert (L : nth_error (p_u s) u = None <-> nth_error (p_u r) u = None).
  { pose proof (e_u _ _ _ _ E u) as U. destruct (nth_error (p_u s) u), (nth_error (p_u r) u); cbn in U; try contradiction; split; congruence. }
  destruct (Nat.eq_dec u k) as [->|N].
  - destruct (nth_error (p_u s) k) eqn:A, (nth_error (p_u r) k) eqn:B; cbn in G; try contradiction.
    + rewrite !nth_error_list_set_eq by (eapply nth_error_lt; eauto). auto.
    + assert (A' : nth_error (list_set (p_u s) k x) k = None) by (apply nth_error_None; rewrite list_set_length; apply nth_error_None; auto).
      assert (B' : nth_error (list_set (p_u r) k y) k = None) by (apply nth_error_None; rewrite list_set_length; apply nth_error_None; auto). rewrite A', B'. cbn. auto.
  - rewrite !nth_error_list_set_neq by auto. auto.
Qed.
Lemma set_u_eqv X d s r u x y : eqx X d s r -> ueq (Some x) (Some y) -> eqx X d (set_u s u x) (set_u r u y).
Proof. intros E Q. constructor; try apply E. cbn [set_u p_u]. eapply ueq_set; eauto. Qed.
Lemma set_s_eqv X d s r u x : eqx X d s r -> eqx X d (set_s s u x) (set_s r u x).
Proof. intros E. constructor; try apply E. cbn. rewrite (e_s _ _ _ _ E). auto. Qed.
Lemma set_us_eqv X d s r u x : eqx X d s r -> eqx X d (set_us s u x) (set_us r u x).
Proof. intros E. constructor; try apply E. cbn. rewrite (e_us _ _ _ _ E). auto. Qed.
Lemma mark_invalid_eqv X d s r h : eqx X d s r -> oeqv X d (mark_invalid d s h) (mark_invalid d r h).
Proof.
  intros E. unfold mark_invalid. pose proof (eqx_get _ _ _ _ h E) as G. unfold H in G. destruct (nth_error (p_h s) h) as [x|], (nth_error (p_h r) h) as [y|]; try contradiction; cbn [bind oeqv]; auto.
  destruct G as (t & T & Q1 & Q2 & Q3).
  assert (E1 : eqx X d (set_h s h (with_valid x false)) (set_h r h (with_valid y false))).
  { eapply set_h_eqv; eauto. split; auto. split; auto. unfold is_valid in *. cbn [with_valid d_valid]. rewrite orb_false_r. intros M NI. rewrite Q3; auto. rewrite M. auto. }
  destruct (um d h) as [[u i]|]; [|exact E1]. unfold make_header_invalid. cbn [set_h p_u]. pose proof (eqx_u _ _ _ _ u E) as U. destruct (nth_error (p_u s) u) as [[v c]|], (nth_error (p_u r) u) as [[v' c']|]; try contradiction; cbn [bind fst snd oeqv] in *; auto.
  destruct U as [<- UC]. destruct v; cbn [andb]; [|exact E1]. rewrite UC by auto. destruct (c' =? i); [apply set_u_eqv; cbn; auto|]; exact E1.
Qed.
Lemma mark_valid_eqv X d s r h : eqx X d s r -> H s h = H r h \/ In h X -> oeqv X d (mark_valid d s h) (mark_valid d r h).
Proof.
  intros E SM. unfold mark_valid. pose proof (eqx_get _ _ _ _ h E) as G. unfold H in G. destruct (nth_error (p_h s) h) as [x|] eqn:Ex, (nth_error (p_h r) h) as [y|] eqn:Ey; try contradiction; cbn [bind oeqv]; auto.
  destruct G as (t & T & Q1 & Q2 & Q3).
  assert (E1 : eqx X d (set_h s h (with_valid x true)) (set_h r h (with_valid y true))).
  { eapply set_h_eqv; eauto. split; auto. split; auto. intros _ NI. destruct SM as [SM|SM]; [|contradiction]. unfold H in SM. rewrite Ex, Ey in SM. injection SM as ->. auto. }
  destruct (um d h) as [[u i]|]; [|exact E1]. unfold make_header_valid. cbn [set_h p_u]. pose proof (eqx_u _ _ _ _ u E) as U. destruct (nth_error (p_u s) u) as [[v c]|], (nth_error (p_u r) u) as [[v' c']|]; try contradiction; cbn [bind fst snd oeqv] in *; auto.
  destruct U as [<- UC]. destruct (nth_error (ds_u d) u) as [m|]; cbn [bind oeqv]; auto.
  apply (bind_eqv X).
  - destruct v; cbn [andb]; [|exact E1]. rewrite UC by auto. destruct (c' =? i); cbn [negb]; [exact E1|]. destruct (nth_error m c') as [k|]; cbn [bind oeqv]; auto. apply mark_invalid_eqv. exact E1.
  - intros s1 r1 E2. cbn. apply set_u_eqv; cbn; auto.
Qed.
Lemma heq_meta X h h' t t' x y : hd_meta t = hd_meta t' -> heq [] h t x y -> heq X h' t' x y.
Proof. intros M (A & B & C). split; auto. split; auto. unfold is_valid in *. rewrite <- M. intros V _. apply C; auto. Qed.
Lemma swap_h_eqv d s r a b : eqx [] d s r -> ~ meta d a -> ~ meta d b -> oeqv [] d (swap_h s a b) (swap_h r a b).
Proof.
  intros E Ma Mb. unfold swap_h. pose proof (eqx_get _ _ _ _ a E) as Ga. pose proof (eqx_get _ _ _ _ b E) as Gb. unfold H in Ga, Gb.
  destruct (nth_error (p_h s) a) as [x|], (nth_error (p_h r) a) as [x'|]; try contradiction; cbn [bind oeqv]; auto.
  destruct (nth_error (p_h s) b) as [y|], (nth_error (p_h r) b) as [y'|]; try contradiction; cbn [bind oeqv]; auto.
  destruct Ga as (ta & Ta & Qa), Gb as (tb & Tb & Qb).
  assert (Za : hd_meta ta = false) by (destruct (hd_meta ta) eqn:Z; auto; exfalso; apply Ma; eapply meta_intro; eauto).
  assert (Zb : hd_meta tb = false) by (destruct (hd_meta tb) eqn:Z; auto; exfalso; apply Mb; eapply meta_intro; eauto).
  apply (set_h_eqv [] [] d _ _ b x x' tb); auto; [apply (set_h_eqv [] [] d _ _ a y y' ta); auto|].
  - eapply (heq_meta [] b a tb ta); eauto; congruence.
  - eapply (heq_meta [] a b ta tb); eauto; congruence.
Qed.
Lemma swap_members_eqv d l : forall m s r, eqx [] d s r -> (forall h, In h l -> ~ meta d h) -> (forall h, In h m -> ~ meta d h) -> oeqv [] d (swap_members s l m) (swap_members r l m).
Proof.
  induction l as [|a l IH]; intros [|b m] s r E Ml Mm; cbn [swap_members oeqv]; auto. apply (bind_eqv []); [apply swap_h_eqv; auto; [apply Ml|apply Mm]; cbn; auto|].
  intros s1 r1 E1. apply IH; auto; intros h Hh; [apply Ml|apply Mm]; cbn; auto.
Qed.
Lemma swap_u_eqv d s r a b : wf d -> eqx [] d s r -> oeqv [] d (swap_u d s a b) (swap_u d r a b).
Proof.
  intros W E. unfold swap_u. destruct (nth_error (ds_u d) a) as [ma|] eqn:A; cbn [bind oeqv]; auto. destruct (nth_error (ds_u d) b) as [mb|] eqn:B; cbn [bind oeqv]; auto.
  destruct (length ma =? length mb); cbn [oeqv]; auto. pose proof (eqx_u _ _ _ _ a E) as Ua. pose proof (eqx_u _ _ _ _ b E) as Ub.
  destruct (nth_error (p_u s) a) as [x|], (nth_error (p_u r) a) as [x'|]; try contradiction; cbn [bind oeqv]; auto.
  destruct (nth_error (p_u s) b) as [y|], (nth_error (p_u r) b) as [y'|]; try contradiction; cbn [bind oeqv]; auto.
  apply swap_members_eqv; [apply set_u_eqv; [apply set_u_eqv; auto|auto]| |]; intros h Hh; [apply (members_range _ _ _ _ W A Hh)|apply (members_range _ _ _ _ W B Hh)].
Qed.
Lemma run_up_eqv d f g n : forall i s r, eqx [] d s r -> (forall i s r, eqx [] d s r -> oeqv [] d (f i s) (g i r)) -> oeqv [] d (run_up n i f s) (run_up n i g r).
Proof. induction n as [|n IH]; intros i s r E F; cbn [run_up oeqv]; auto. apply (bind_eqv []); auto. Qed.
Lemma run_down_eqv d f g n : forall i s r, eqx [] d s r -> (forall i s r, eqx [] d s r -> oeqv [] d (f i s) (g i r)) -> oeqv [] d (run_down n i f s) (run_down n i g r).
Proof. induction n as [|n IH]; intros i s r E F; cbn [run_down oeqv]; auto. apply (bind_eqv []); auto. Qed.
Definition oeqv2 (d : desc) (a b : option (phv * nat)) : Prop :=
  match a, b with Some s, Some r => eqx [] d (fst s) (fst r) /\ snd s = snd r | None, None => True | _, _ => False end.
Lemma bind_eqv2 d (a b : option phv) f g : oeqv [] d a b -> (forall s r, eqx [] d s r -> oeqv2 d (f s) (g r)) -> oeqv2 d (bind a f) (bind b g).
Proof. intros E F. destruct a, b; cbn in *; auto; contradiction. Qed.
Lemma bind_eqv2' d (a b : option (phv * nat)) f g : oeqv2 d a b -> (forall s r n, eqx [] d s r -> oeqv [] d (f (s, n)) (g (r, n))) -> oeqv [] d (bind a f) (bind b g).
Proof. intros E F. destruct a as [[a n]|], b as [[b n']|]; cbn in *; auto; try contradiction. destruct E as [E ->]. auto. Qed.
Definition resp2 (d : desc) (e : list nat) (f : phv -> nat -> nat -> option phv) : Prop := forall s r a b, eqx [] d s r -> In a e -> In b e -> oeqv [] d (f s a b) (f r a b).
Definition resp1 (d : desc) (e : list nat) (f : phv -> nat -> option phv) : Prop := forall s r a, eqx [] d s r -> In a e -> oeqv [] d (f s a) (f r a).
Lemma swap_el_eqv d sw e i j s r : resp2 d e sw -> eqx [] d s r -> oeqv [] d (swap_el sw e i j s) (swap_el sw e i j r).
Proof. intros F E. unfold swap_el. destruct (nth_error e i) eqn:A; cbn [bind oeqv]; auto. destruct (nth_error e j) eqn:B; cbn [bind oeqv]; auto. apply F; auto; eapply nth_error_In; eauto. Qed.
Lemma at_el_eqv d f e i s r : resp1 d e f -> eqx [] d s r -> oeqv [] d (at_el e i (f s)) (at_el e i (f r)).
Proof. intros F E. unfold at_el. destruct (nth_error e i) eqn:A; cbn [bind oeqv]; auto. apply F; auto; eapply nth_error_In; eauto. Qed.
Lemma shifts_eqv d sw mk e next n s r : resp2 d e sw -> resp1 d e mk -> eqx [] d s r ->
  oeqv2 d (pop16 sw mk e next n s) (pop16 sw mk e next n r) /\ oeqv2 d (push16 sw mk e next n s) (push16 sw mk e next n r) /\
  oeqv2 d (pop_legacy sw mk e next n s) (pop_legacy sw mk e next n r) /\ oeqv2 d (push_legacy sw mk e next n s) (push_legacy sw mk e next n r).
Proof.
  intros F G E. unfold pop16, push16, pop_legacy, push_legacy. split; [|split; [|split]]; (destruct (n =? 0); [cbn; auto|]); repeat match goal with |- context [if ?b then None else _] => destruct b; [cbn; auto|] end;
    (apply bind_eqv2; [(apply run_up_eqv || apply run_down_eqv); auto; intros; apply swap_el_eqv; auto|]; intros s1 r1 E1;
     apply bind_eqv2; [apply run_up_eqv; auto; intros; apply at_el_eqv; auto|]; intros s2 r2 E2; cbn; auto).
Qed.

(** ** Header assignment *)
Definition both (ag : bool) (d : desc) (a b : option phv) : Prop := exists s r, a = Some s /\ b = Some r /\ INV ag d s /\ INV ag d r /\ eqx [] d s r.
Lemma assign_header_eqv d s r a b : wf d -> INV true d s -> INV true d r -> eqx [] d s r -> same_type d a b -> ~ siblings d a b -> (meta d b -> meta d a) ->
  both true d (assign_header d s a b) (assign_header d r a b).
Proof.
  intros W I J E ST NS MM. destruct (assign_header_inv true d s a b W I ST) as (s' & A & I' & _); [auto|]. destruct (assign_header_inv true d r a b W J ST) as (r' & B & J' & _); [auto|].
  exists s', r'. split; auto. split; auto. split; auto. split; auto.
  enough (G : oeqv [] d (assign_header d s a b) (assign_header d r a b)) by (rewrite A, B in G; exact G). clear A B s' r' I' J'.
  destruct ST as (td & ts & Td & Ts & TY). pose proof (wf_ty _ W _ _ _ _ Td Ts TY) as FE. unfold assign_header. rewrite Td, Ts. cbn [bind].
  pose proof (eqx_get _ _ _ _ b E) as G. destruct (H_get _ _ _ b I (nth_error_lt _ _ _ Ts)) as (y & Ey). destruct (H_get _ _ _ b J (nth_error_lt _ _ _ Ts)) as (y' & Ey'). rewrite Ey, Ey' in G. unfold H in Ey, Ey'. rewrite Ey, Ey'. fold (H s b) in Ey. fold (H r b) in Ey'. cbn [bind].
  destruct G as (ts' & Ts' & Q1 & Q2 & Q3). rewrite Ts in Ts'. injection Ts' as <-. replace (is_valid ts y') with (is_valid ts y) by (unfold is_valid; congruence).
  destruct (is_valid ts y) eqn:V; cbn [negb]; [|apply mark_invalid_eqv; auto]. assert (y' = y) as -> by (symmetry; apply Q3; auto). rewrite TY, Nat.eqb_refl.
  destruct (H_get _ _ _ a I (nth_error_lt _ _ _ Td)) as (x & Ex). destruct (H_get _ _ _ a J (nth_error_lt _ _ _ Td)) as (x' & Ex').
  assert (E1 : eqx [a] d s r) by (destruct E as [P1 P2 P3 P4 P5]; constructor; auto; intros h t z z' T Z Z'; destruct (P5 h t z z' T Z Z') as (R1 & R2 & R3); split; auto; split; auto).
  pose proof (mark_valid_eqv [a] d s r a E1 (or_intror (or_introl eq_refl))) as M.
  destruct (mark_valid_ok true d s a x W I Ex) as (s1 & A & I1 & _ & HA & OA & _). destruct (mark_valid_ok true d r a x' W J Ex') as (r1 & B & J1 & _ & HB & OB & _).
  rewrite A, B in M |- *. cbn [bind oeqv] in M |- *.
  assert (SB : exists y1, H s1 b = Some y1 /\ H r1 b = Some y1 \/ (b = a /\ H s1 b = H r1 b /\ H s1 b = Some y1)).
  { destruct (Nat.eq_dec b a) as [->|N].
    - rewrite Ex in Ey. injection Ey as ->. rewrite Ex' in Ey'. injection Ey' as ->. exists (with_valid y true). right. rewrite HA, HB. auto.
    - exists (after_valid d a b y). left. split; [apply OA|apply OB]; auto. }
  assert (SB' : exists y1, H s1 b = Some y1 /\ H r1 b = Some y1) by (destruct SB as (y1 & [SB|(_ & S1 & S2)]); exists y1; [auto|split; congruence]).
  destruct SB' as (y1 & S1 & R1). pose proof S1 as S1'. pose proof R1 as R1'. pose proof HA as HA'. pose proof HB as HB'. unfold H in S1', R1', HA', HB'. rewrite S1', R1'. cbn [bind]. rewrite HA', HB'. cbn [bind].
  pose proof (i_f _ _ _ I1 _ _ _ Td HA) as F1. pose proof (i_f _ _ _ J1 _ _ _ Td HB) as F2. pose proof (i_f _ _ _ I1 _ _ _ Ts S1) as F3. unfold fields_ok in F3. rewrite <- FE in F3.
  rewrite (copy_all _ _ _ (proj1 F1) (proj1 F3)), (copy_all _ _ _ (proj1 F2) (proj1 F3)). cbn [with_valid d_valid d_vf d_nb].
  destruct (is_VL td) eqn:VL; cbn [andb].
  - destruct (negb (sum_bits (d_fields y1) mod 8 =? 0)); cbn [oeqv]; auto. apply (set_h_eqv [a] [] d s1 r1 a _ _ td M Td); [split; auto|]. intros k [<-|[]]; auto.
  - pose proof (nb_eq td _ _ F1 F2 VL) as NB. cbn [with_valid d_nb] in NB. rewrite NB. apply (set_h_eqv [a] [] d s1 r1 a _ _ td M Td); [split; auto|]. intros k [<-|[]]; auto.
Qed.
Lemma assign_all_eqv d (R : nat -> nat -> Prop) f : (forall s r a b, INV true d s -> INV true d r -> eqx [] d s r -> R a b -> both true d (f s a b) (f r a b)) ->
  forall l m, Forall2 R l m -> forall s r, INV true d s -> INV true d r -> eqx [] d s r -> both true d (assign_all f s l m) (assign_all f r l m).
Proof.
  intros F l m F2. induction F2 as [|a b l m Rab F2 IH]; intros s r I J E; cbn [assign_all]; [exists s, r; auto|].
  destruct (F s r a b I J E Rab) as (s1 & r1 & -> & -> & I1 & J1 & E1). cbn [bind]. apply IH; auto.
Qed.
Lemma both_oeqv d a b : both true d a b -> oeqv [] d a b.
Proof. intros (s & r & -> & -> & _ & _ & E). exact E. Qed.
Lemma F2_impl_in {A B} (R Q : A -> B -> Prop) l m : Forall2 R l m -> (forall i a b, nth_error l i = Some a -> nth_error m i = Some b -> R a b -> Q a b) -> Forall2 Q l m.
Proof.
  intros F2. induction F2 as [|a b l m Rab F2 IH]; intros G; constructor; [apply (G 0); auto|]. apply IH. intros i x y X Y. apply (G (S i)); auto.
Qed.
Lemma assign_union_eqv d s r a b : wf d -> INV true d s -> INV true d r -> eqx [] d s r -> unions_match d a b -> both true d (assign_union d s a b) (assign_union d r a b).
Proof.
  intros W I J E (m & m' & A & B & F2). unfold assign_union. rewrite A, B. cbn [bind].
  apply (assign_all_eqv d (fun x y => same_type d x y /\ ~ siblings d x y /\ ~ meta d y)); auto.
  - intros s1 r1 x y I1 J1 E1 (ST & NS & M). apply assign_header_eqv; auto. intros; contradiction.
  - eapply F2_impl_in; [exact F2|]. intros i x y X Y ST. split; auto. split; [|eapply members_range; eauto; eapply nth_error_In; eauto].
    eapply (not_sib_diff d a b i i); eauto; [exists m; auto|exists m'; auto].
Qed.

Definition op_sim (legacy : bool) (d : desc) (o : op) : Prop :=
  match o with
  | OAddFast _ | OPushBack _ => False
  | OAdd h => forall t, nth_error (ds_h d) h = Some t -> is_VL t = false
  | OPush _ _ => legacy = false
  | _ => True
  end.
Lemma zero_eq t fx fy : Forall2 wmatch t fx -> Forall2 wmatch t fy -> existsb (fun w : option nat => match w with None => true | Some _ => false end) t = false ->
  map (fun f : nat * Z => (fst f, 0%Z)) fx = map (fun f => (fst f, 0%Z)) fy.
Proof.
  intros Fx. revert fy. induction Fx as [|w f t fx Wf Fx IH]; intros fy Fy VL; inversion Fy as [|w' g t' fy' Wg Fy']; subst; auto. cbn [existsb] in VL. apply orb_false_iff in VL as [V1 V2]. cbn [map]. rewrite (IH fy') by auto.
  destruct w as [w|]; [|discriminate]. cbn in Wf, Wg. rewrite Wf, Wg. auto.
Qed.
Lemma extract_eqv d s r h vl vals : wf d -> INV true d s -> INV true d r -> eqx [] d s r -> oeqv [] d (extract d s h vl vals) (extract d r h vl vals).
Proof.
  intros W I J E. unfold extract. destruct (nth_error (ds_h d) h) as [t|] eqn:T; cbn [bind oeqv]; auto. pose proof (eqx_get _ _ _ _ h E) as G. destruct (H s h) as [x|] eqn:Ex, (H r h) as [y|] eqn:Ey; try contradiction; unfold H in Ex, Ey; rewrite Ex, Ey; cbn [bind oeqv]; auto.
  destruct G as (t' & T' & Q1 & Q2 & Q3). rewrite T in T'. injection T' as <-. destruct (length vals =? length (hd_fields t)); cbn [oeqv]; auto. cbv zeta.
  set (fs := map _ _). destruct (is_VL t && negb (sum_bits fs mod 8 =? 0)); cbn [oeqv]; auto.
  assert (NB : (if is_VL t then Z.of_nat (sum_bits fs / 8) else d_nb x) = (if is_VL t then Z.of_nat (sum_bits fs / 8) else d_nb y)).
  { destruct (is_VL t) eqn:VL; auto. eapply nb_eq; eauto; [eapply (i_f _ _ _ I); eauto|eapply (i_f _ _ _ J); eauto]. }
  rewrite NB, Q1, Q2. apply mark_valid_eqv.
  - eapply set_h_eqv; eauto. split; auto.
  - left. rewrite !H_set_eq by (rewrite ?(i_h _ _ _ I), ?(i_h _ _ _ J); eapply nth_error_lt; eauto). auto.
Qed.
Lemma step_eqv legacy d s r o : wf d -> INV true d s -> INV true d r -> eqx [] d s r -> op_ok d o -> op_agree d o -> op_sim legacy d o -> oeqv [] d (step legacy d s o) (step legacy d r o).
Proof.
  intros W I J E OK AG SI. destruct o; cbn [step op_ok op_agree op_sim] in *.
  - apply extract_eqv; auto.
  - (* add *) unfold add_header. destruct (nth_error (ds_h d) h) as [t|] eqn:T; cbn [bind oeqv]; auto. pose proof (eqx_get _ _ _ _ h E) as G. destruct (H s h) as [x|] eqn:Ex, (H r h) as [y|] eqn:Ey; try contradiction; pose proof Ex as Ex'; pose proof Ey as Ey'; unfold H in Ex', Ey'; rewrite Ex', Ey'; cbn [bind oeqv]; auto.
    destruct G as (t' & T' & Q1 & Q2 & Q3). rewrite T in T'. injection T' as <-. replace (is_valid t y) with (is_valid t x) by (unfold is_valid; congruence). destruct (is_valid t x) eqn:V; [exact E|].
    pose proof (i_f _ _ _ I _ _ _ T Ex) as Fx. pose proof (i_f _ _ _ J _ _ _ T Ey) as Fy.
    assert (RE : reset_hdr x = reset_hdr y). { unfold reset_hdr. rewrite Q1, (zero_eq _ _ _ (proj1 Fx) (proj1 Fy)), (nb_eq t x y Fx Fy) by (apply SI; auto). auto. }
    rewrite RE. apply mark_valid_eqv; [eapply set_h_eqv; eauto; split; auto|]. left. rewrite !H_set_eq by (rewrite ?(i_h _ _ _ I), ?(i_h _ _ _ J); eapply nth_error_lt; eauto). auto.
  - contradiction.
  - (* remove *) unfold remove_header. destruct (nth_error (ds_h d) h) as [t|] eqn:T; cbn [bind oeqv]; auto. pose proof (eqx_get _ _ _ _ h E) as G. destruct (H s h) as [x|] eqn:Ex, (H r h) as [y|] eqn:Ey; try contradiction; unfold H in Ex, Ey; rewrite Ex, Ey; cbn [bind oeqv]; auto.
    destruct G as (t' & T' & Q1 & Q2 & Q3). rewrite T in T'. injection T' as <-. replace (is_valid t y) with (is_valid t x) by (unfold is_valid; congruence). destruct (is_valid t x) eqn:V; [|exact E]. apply mark_invalid_eqv; auto.
  - apply both_oeqv, assign_header_eqv; tauto.
  - apply both_oeqv, assign_union_eqv; auto.
  - (* assign stack *) destruct OK as (e & e' & A & B & F2). unfold assign_stack. rewrite A, B, (e_s _ _ _ _ E). cbn [bind]. destruct (nth_error (p_s r) src) as [n|] eqn:En; cbn [bind oeqv]; auto.
    pose proof (i_ns _ _ _ J _ _ _ B En) as LN. rewrite <- (F2_len _ _ _ F2) in LN. apply both_oeqv, (assign_all_eqv d (fun x y => same_type d x y /\ In x e /\ In y e')).
    + intros s1 r1 x y I1 J1 E1 (ST & Hx & Hy). apply assign_header_eqv; auto.
      * intros (u & i & i' & M & _). destruct (stack_range _ _ _ _ W A Hx) as (_ & U & _). apply U. exists u, i. auto.
      * intros M. exfalso. apply (stack_range _ _ _ _ W B Hy); auto.
    + eapply F2_impl_in; [exact F2|]. intros i x y X Y ST. split; auto. split; eapply nth_error_In; eauto.
    + eapply INV_set_s; eauto.
    + eapply INV_set_s; eauto.
    + apply set_s_eqv; auto.
  - destruct OK as (e & e' & A & B & F2). unfold assign_ustack. rewrite A, B, (e_us _ _ _ _ E). cbn [bind]. destruct (nth_error (p_us r) src) as [n|] eqn:En; cbn [bind oeqv]; auto.
    pose proof (i_nus _ _ _ J _ _ _ B En) as LN. rewrite <- (F2_len _ _ _ F2) in LN. apply both_oeqv, (assign_all_eqv d (unions_match d)); auto.
    + intros. apply assign_union_eqv; auto.
    + eapply INV_set_us; eauto.
    + eapply INV_set_us; eauto.
    + apply set_us_eqv; auto.
  - (* push *) subst legacy. unfold push_front. destruct (nth_error (ds_s d) k) as [e|] eqn:A; cbn [bind oeqv]; auto. rewrite (e_s _ _ _ _ E). destruct (nth_error (p_s r) k) as [nx|]; cbn [bind oeqv]; auto.
    eapply bind_eqv2'; [apply shifts_eqv; auto|intros; cbn; apply set_s_eqv; auto].
    + intros s1 r1 x y E1 Hx Hy. apply swap_h_eqv; auto; eapply stack_range; eauto.
    + intros s1 r1 x E1 Hx. apply mark_invalid_eqv; auto.
  - unfold pop_front. destruct (nth_error (ds_s d) k) as [e|] eqn:A; cbn [bind oeqv]; auto. rewrite (e_s _ _ _ _ E). destruct (nth_error (p_s r) k) as [nx|]; cbn [bind oeqv]; auto.
    eapply bind_eqv2'; [destruct legacy; apply shifts_eqv; auto|intros; cbn; apply set_s_eqv; auto];
    try (intros s1 r1 x y E1 Hx Hy; apply swap_h_eqv; auto; eapply stack_range; eauto); intros s1 r1 x E1 Hx; apply mark_invalid_eqv; auto.
  - unfold push_front_u. destruct (nth_error (ds_us d) k) as [e|] eqn:A; cbn [bind oeqv]; auto. rewrite (e_us _ _ _ _ E). destruct (nth_error (p_us r) k) as [nx|]; cbn [bind oeqv]; auto.
    eapply bind_eqv2'; [destruct legacy; apply shifts_eqv; auto|intros; cbn; apply set_us_eqv; auto];
    try (intros s1 r1 x y E1 Hx Hy; apply swap_u_eqv; auto); intros s1 r1 x E1 Hx; cbn; auto.
  - unfold pop_front_u. destruct (nth_error (ds_us d) k) as [e|] eqn:A; cbn [bind oeqv]; auto. rewrite (e_us _ _ _ _ E). destruct (nth_error (p_us r) k) as [nx|]; cbn [bind oeqv]; auto.
    eapply bind_eqv2'; [destruct legacy; apply shifts_eqv; auto|intros; cbn; apply set_us_eqv; auto];
    try (intros s1 r1 x y E1 Hx Hy; apply swap_u_eqv; auto); intros s1 r1 x E1 Hx; cbn; auto.
  - (* extract_next *) destruct OK as (e & A & VL & LV). unfold extract_next. rewrite A, (e_s _ _ _ _ E). cbn [bind]. destruct (nth_error (p_s r) k) as [nx|] eqn:En; cbn [bind oeqv]; auto. destruct (Nat.leb_spec (length e) nx) as [LE|LT]; [exact E|].
    unfold at_el. destruct (nth_error_some e nx) as (h & Eh); auto. rewrite Eh. cbn [bind]. pose proof (nth_error_In _ _ Eh) as Hh. destruct (stack_range _ _ _ _ W A Hh) as (Lh & NU & NM).
    destruct (nth_error_some _ _ Lh) as (t & T). destruct (H_get _ _ _ h I Lh) as (x & Ex). destruct (H_get _ _ _ h J Lh) as (y & Ey).
    destruct (extract_ok true d s h vl vals t x W I T Ex) as (s1 & fs1 & nb1 & A1 & I1 & FR1 & H1 & _); auto. { eapply LV; eauto. }
    destruct (extract_ok true d r h vl vals t y W J T Ey) as (r1 & fs2 & nb2 & A2 & J1 & FR2 & H2 & _); auto. { eapply LV; eauto. }
    pose proof (extract_eqv d s r h vl vals W I J E) as E1. rewrite A1, A2 in E1 |- *. cbn [oeqv bind] in E1 |- *.
    assert (HE : H s1 h = H r1 h). { pose proof (eqx_get _ _ _ _ h E1) as G. rewrite H1, H2 in G. destruct G as (t' & T' & _ & _ & G). rewrite H1, H2. f_equal. apply G; [unfold is_valid; apply orb_true_r|auto]. }
    unfold push_back. rewrite A. cbn [bind]. rewrite (e_s _ _ _ _ E1). replace (p_s r1) with (p_s r) by (symmetry; apply FR2). rewrite En. cbn [bind]. destruct (Nat.eqb_spec nx (length e)); [lia|]. unfold at_el. rewrite Eh. cbn [bind].
    pose proof (mark_valid_eqv [] d s1 r1 h E1 (or_introl HE)) as M. destruct (mark_valid d s1 h) as [s2|], (mark_valid d r1 h) as [r2|]; cbn [oeqv bind fst] in *; try contradiction; auto. apply set_s_eqv; auto.
  - contradiction.
  - unfold pop_back. destruct (nth_error (ds_s d) k) as [e|] eqn:A; cbn [bind oeqv]; auto. rewrite (e_s _ _ _ _ E). destruct (nth_error (p_s r) k) as [[|nx]|]; cbn [bind oeqv fst]; auto. unfold at_el. destruct (nth_error e nx) as [h|]; cbn [bind oeqv fst]; auto.
    pose proof (mark_invalid_eqv [] d s r h E) as M. destruct (mark_invalid d s h), (mark_invalid d r h); cbn [oeqv bind fst] in *; try contradiction; auto. apply set_s_eqv; auto.
  - unfold push_back_u. destruct (nth_error (ds_us d) k) as [e|] eqn:A; cbn [bind oeqv]; auto. rewrite (e_us _ _ _ _ E). destruct (nth_error (p_us r) k) as [nx|]; cbn [bind oeqv]; auto. destruct (nx =? length e); cbn [bind oeqv fst]; auto. apply set_us_eqv; auto.
  - (* set *) destruct OK as (t & T & LF). unfold set_field. pose proof (eqx_get _ _ _ _ h E) as G. destruct (H s h) as [x|] eqn:Ex, (H r h) as [y|] eqn:Ey; try contradiction; pose proof Ex as Ex'; pose proof Ey as Ey'; unfold H in Ex', Ey'; rewrite Ex', Ey'; cbn [bind oeqv]; auto.
    destruct G as (t' & T' & Q1 & Q2 & Q3). rewrite T in T'. injection T' as <-. pose proof (proj1 (i_f _ _ _ I _ _ _ T Ex)) as Fx. pose proof (proj1 (i_f _ _ _ J _ _ _ T Ey)) as Fy.
    destruct (nth_error_some (d_fields x) f) as (o1 & O1); [rewrite <- (F2_len _ _ _ Fx); auto|]. destruct (nth_error_some (d_fields y) f) as (o2 & O2); [rewrite <- (F2_len _ _ _ Fy); auto|]. rewrite O1, O2. cbn [bind oeqv].
    eapply set_h_eqv; eauto. split; auto. split; auto. unfold is_valid in *. cbn [d_valid]. intros V _. specialize (Q3 V (fun z => z)). subst y. rewrite O1 in O2. injection O2 as <-. auto.
  - (* recycle *) unfold recycle. apply (bind_eqv []).
    + unfold phv_reset. replace (length (p_h r)) with (length (p_h s)) by (destruct (e_len _ _ _ _ E); congruence). apply run_up_eqv; auto. intros h s1 r1 E1. destruct (nth_error (ds_h d) h) as [t|] eqn:T; cbn [bind oeqv]; auto.
      pose proof (mark_invalid_eqv [] d s1 r1 h E1) as M. destruct (mark_invalid d s1 h) as [s2|], (mark_invalid d r1 h) as [r2|]; cbn [oeqv bind] in *; try contradiction; auto. pose proof (eqx_get _ _ _ _ h M) as G. destruct (H s2 h) as [x|] eqn:Ex, (H r2 h) as [y|] eqn:Ey; try contradiction; unfold H in Ex, Ey; rewrite Ex, Ey; cbn [bind oeqv]; auto.
      destruct G as (t' & T' & Q1 & Q2 & Q3). rewrite T in T'. injection T' as <-. destruct (is_VL t); auto. eapply set_h_eqv; eauto. split; auto. split; auto. intros V _. replace (is_valid t (reset_VL t x)) with (is_valid t x) in V by reflexivity. rewrite (Q3 V (fun z => z)). auto.
    + intros s1 r1 E1. cbn. destruct E1 as [P1 P2 P3 P4 P5]. constructor; auto; cbn; congruence.
  - (* reset metadata *) cbn. destruct (e_len _ _ _ _ E) as [L1 L2]. constructor; try apply E.
    + cbn [reset_metadata p_h]. rewrite !map_length, !combine_length. lia.
    + intros h t x y T X Y. rewrite reset_metadata_H, T in X, Y. destruct (H s h) as [x0|] eqn:Ex; [|discriminate]. destruct (H r h) as [y0|] eqn:Ey; [|discriminate]. injection X as <-. injection Y as <-.
      destruct (e_h _ _ _ _ E _ _ _ _ T Ex Ey) as (Q1 & Q2 & Q3). destruct (hd_meta t) eqn:M; [|split; auto]. assert (x0 = y0) as <- by (apply Q3; auto; unfold is_valid; rewrite M; auto). split; auto.
Qed.
Lemma run_eqv legacy d l : wf d -> Forall (op_ok d) l -> Forall (op_agree d) l -> Forall (op_sim legacy d) l -> forall s r, INV true d s -> INV true d r -> eqx [] d s r ->
  exists s' r', run legacy d s l = Some s' /\ run legacy d r l = Some r' /\ INV true d s' /\ INV true d r' /\ eqx [] d s' r'.
Proof.
  intros W OK AG SI. induction l as [|o l IH]; intros s r I J E; cbn [run]; [exists s, r; auto|].
  inversion OK; inversion AG; inversion SI; subst. pose proof (step_eqv legacy d s r o W I J E) as ST.
  destruct (step_inv true legacy d s o) as (s1 & A & I1); auto. destruct (step_inv true legacy d r o) as (r1 & B & J1); auto. rewrite A, B in *. cbn [bind]. apply IH; auto. apply ST; auto.
Qed.
