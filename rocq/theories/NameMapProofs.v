(** Proofs about the name maps. *)
From Coq Require Import List Arith NArith ZArith Bool Lia.
From Verif Require Import NameMapModel NameMapSpec.
Import ListNotations.

Lemma str_eqb_spec a : forall b, reflect (a = b) (str_eqb a b).
Proof.
  induction a as [|x a IH]; intros [|y b]; cbn; try (constructor; congruence).
  destruct (N.eqb_spec x y); cbn; [|constructor; congruence]. destruct (IH b); constructor; congruence.
Qed.

Section Map.
Context {K V : Type}.
Variable eqb : K -> K -> bool.
Hypothesis eqb_ok : forall a b, reflect (a = b) (eqb a b).
Lemma aget_in (m : list (K * V)) k v : aget eqb m k = Some v -> In (k, v) m.
Proof. induction m as [|[x w] m IH]; cbn; [discriminate|]. destruct (eqb_ok x k); [intros [= ->]; subst; auto|auto]. Qed.
Lemma aget_none (m : list (K * V)) k : aget eqb m k = None <-> forall v, ~ In (k, v) m.
Proof.
  induction m as [|[x w] m IH]; cbn; [tauto|]. destruct (eqb_ok x k) as [->|N].
  - split; [discriminate|]. intros H. destruct (H w). auto.
  - rewrite IH. split; intros H v; specialize (H v); intuition congruence.
Qed.
Lemma aget_some (m : list (K * V)) k v : (forall v1 v2, In (k, v1) m -> In (k, v2) m -> v1 = v2) ->
  (aget eqb m k = Some v <-> In (k, v) m).
Proof.
  intros H. split; [apply aget_in|]. intros I. destruct (aget eqb m k) as [w|] eqn:E.
  - f_equal. apply H; auto. apply aget_in; auto.
  - rewrite aget_none in E. destruct (E v I).
Qed.
Lemma aset_new (m : list (K * V)) k v : aget eqb m k = None -> aset eqb m k v = m ++ [(k, v)].
Proof. induction m as [|[x w] m IH]; cbn; [reflexivity|]. destruct (eqb x k); [discriminate|]. intros H. rewrite IH; auto. Qed.
End Map.

(** ** Errors *)
Definition swap (x : str * Z) : Z * str := (snd x, fst x).
Record EM (m : emap) (s : errs) : Prop := {
  er_vals : em_vals m = s; er_names : em_names m = map swap s; er_one : one_to_one s }.

Lemma in_swap n v s : In (v, n) (map swap s) <-> In (n, v) s.
Proof.
  rewrite in_map_iff. split; [intros ([n' v'] & E & I); inversion E; subst; auto|]. intros I. exists (n, v). auto.
Qed.
Lemma em_val m s n v : EM m s -> (aget str_eqb (em_vals m) n = Some v <-> In (n, v) s).
Proof. intros [-> _ (A & _ & _)]. apply aget_some; [apply str_eqb_spec|]. intros. eapply A; eauto. Qed.
Lemma em_name m s n v : EM m s -> (aget Z.eqb (em_names m) v = Some n <-> In (n, v) s).
Proof.
  intros [_ -> (_ & B & _)]. rewrite aget_some; [apply in_swap|apply Z.eqb_spec|].
  intros n1 n2 I1 I2. apply in_swap in I1, I2. eapply B; eauto.
Qed.
Lemma em_val_none m s n : EM m s -> (aget str_eqb (em_vals m) n = None <-> name_free s n).
Proof. intros [-> _ _]. apply aget_none. apply str_eqb_spec. Qed.
Lemma em_name_none m s v : EM m s -> (aget Z.eqb (em_names m) v = None <-> code_free s v).
Proof.
  intros [_ -> _]. rewrite aget_none by apply Z.eqb_spec. unfold code_free.
  split; intros H n I; apply (H n); apply in_swap; auto.
Qed.

Lemma one_snoc s n v : one_to_one s -> name_free s n -> code_free s v -> one_to_one (s ++ [(n, v)]).
Proof.
  intros (A & B & C) F G. repeat split.
  - intros x a b I J. apply in_app_iff in I, J. cbn in I, J. destruct I as [I|[I|[]]], J as [J|[J|[]]]; try congruence.
    + eauto. + inversion J; subst. destruct (F _ I). + inversion I; subst. destruct (F _ J).
  - intros x y a I J. apply in_app_iff in I, J. cbn in I, J. destruct I as [I|[I|[]]], J as [J|[J|[]]]; try congruence.
    + eauto. + inversion J; subst. destruct (G _ I). + inversion I; subst. destruct (G _ J).
  - clear A B. induction C as [|a l C1 C2 IH]; cbn; [repeat constructor; auto|]. constructor.
    + rewrite in_app_iff. cbn. intros [I|[<-|[]]]; [auto|]. apply (F v). cbn; auto.
    + apply IH; intros y I; [apply (F y)|apply (G y)]; cbn; auto.
Qed.

Lemma add_ok m s n v : EM m s ->
  let (m', b) := em_add m n v in
  (b = true /\ name_free s n /\ code_free s v /\ EM m' (s ++ [(n, v)])) \/
  (b = false /\ ~ (name_free s n /\ code_free s v) /\ m' = m).
Proof.
  intros R. unfold em_add, em_exists_name, em_exists_v.
  pose proof (em_val_none m s n R) as Hn. pose proof (em_name_none m s v R) as Hv.
  destruct (aget str_eqb (em_vals m) n) as [v0|] eqn:E1; cbn [orb].
  - right. repeat split; auto. intros [A _]. apply Hn in A. discriminate.
  - destruct (aget Z.eqb (em_names m) v) as [n0|] eqn:E2; cbn.
    + right. repeat split; auto. intros [_ A]. apply Hv in A. discriminate.
    + left. assert (Fn : name_free s n) by (apply Hn; auto). assert (Fv : code_free s v) by (apply Hv; auto).
      repeat split; auto; cbn.
      * rewrite aset_new by auto. destruct R as [-> _ _]. reflexivity.
      * rewrite aset_new by auto. destruct R as [_ -> _]. rewrite map_app. reflexivity.
      * apply (one_snoc s n v); auto. apply R.
      * apply (one_snoc s n v); auto. apply R.
      * apply (one_snoc s n v); auto. apply R.
Qed.

Lemma max_key_ok s : match max_key (map swap s) with
  | None => s = []
  | Some x => s <> [] /\ (exists n, In (n, x) s) /\ forall n v, In (n, v) s -> (v <= x)%Z
  end.
Proof.
  induction s as [|[n v] s IH]; [reflexivity|].
  change (max_key (map swap ((n, v) :: s))) with (match max_key (map swap s) with None => Some v | Some y => Some (Z.max v y) end).
  destruct (max_key (map swap s)) as [x|].
  - destruct IH as (_ & (n0 & I0) & H). split; [discriminate|]. split.
    + destruct (Z.max_spec v x) as [[_ ->]|[_ ->]]; [exists n0|exists n]; cbn; auto.
    + intros n1 v1 [E|I]; [inversion E; subst; lia|]. specialize (H _ _ I). lia.
  - subst s. split; [discriminate|]. split; [exists n; cbn; auto|]. intros n1 v1 [E|[]]. inversion E; subst. lia.
Qed.

Lemma name_free_app s l n : name_free (s ++ l) n <-> name_free s n /\ ~ In n (map fst l).
Proof.
  unfold name_free. split.
  - intros H. split; [intros v I; apply (H v); apply in_app_iff; auto|]. intros I. apply in_map_iff in I as ([n' v] & E & I).
    cbn in E. subst. apply (H v). apply in_app_iff. auto.
  - intros [A B] v I. apply in_app_iff in I as [I|I]; [exact (A v I)|]. apply B. change n with (fst (n, v)). now apply in_map.
Qed.

Lemma add_names_ok s base : forall names m new, EM m (s ++ new) -> NoDup names ->
  (forall n, In n names -> ~ In n (map fst new)) ->
  (forall n v, In (n, v) s -> v < base)%Z ->
  map snd new = map (fun i => (base + Z.of_nat i)%Z) (seq 0 (length new)) ->
  (base + Z.of_nat (length new + length names) <= int_max)%Z ->
  exists m' add, add_names m names (base + Z.of_nat (length new)) = Some m' /\ EM m' (s ++ new ++ add) /\
    (forall n, In n (map fst add) <-> In n names /\ name_free s n) /\ NoDup (map fst add) /\ length add <= length names /\
    map snd (new ++ add) = map (fun i => (base + Z.of_nat i)%Z) (seq 0 (length (new ++ add))).
Proof.
  induction names as [|n names IH]; intros m new R Nd Dj Lt Cs Bd; cbn [add_names].
  - exists m, []. rewrite !app_nil_r. split; [reflexivity|]. split; [exact R|]. split; [cbn; tauto|]. split; [constructor|]. split; [cbn; lia|exact Cs].
  - inversion Nd as [|? ? N1 N2]; subst. unfold em_exists_name.
    pose proof (em_val_none m _ n R) as Hn.
    destruct (aget str_eqb (em_vals m) n) as [v0|] eqn:E1.
    + assert (Nf : ~ name_free s n).
      { intros F. assert (X : Some v0 = None); [|discriminate]. apply Hn. apply name_free_app. split; auto. apply Dj. cbn; auto. }
      destruct (IH m new) as (m' & add & Ea & Ra & Ia & Na & La & Ca); auto.
      { intros x I. apply Dj. cbn; auto. } { cbn [length] in Bd. lia. }
      exists m', add. split; [exact Ea|]. split; [exact Ra|]. split; [|split; [exact Na|split; [|exact Ca]]]; [intros x; split|].
      * intros I. apply Ia in I. cbn. tauto.
      * intros [[<-|I] F]; [contradiction|]. apply Ia. auto.
      * cbn. lia.
    + assert (Fn : name_free (s ++ new) n) by (apply Hn; auto). apply name_free_app in Fn as [Fn Fw].
      unfold int_incr. cbn [length] in Bd.
      destruct (Z.eqb_spec (base + Z.of_nat (length new)) int_max) as [E|_]; [lia|].
      assert (Fc : code_free (s ++ new) (base + Z.of_nat (length new))).
      { intros x I. apply in_app_iff in I as [I|I]; [specialize (Lt _ _ I); lia|].
        apply (in_map snd) in I. rewrite Cs in I. cbn in I. apply in_map_iff in I as (i & E & I). apply in_seq in I. lia. }
      pose proof (add_ok m _ n (base + Z.of_nat (length new)) R) as A.
      destruct (em_add m n _) as [m1 b]. cbn [fst].
      destruct A as [(_ & _ & _ & R1)|(_ & A & _)].
      2:{ destruct A. split; auto. apply name_free_app. auto. }
      rewrite <- app_assoc in R1.
      replace (base + Z.of_nat (length new) + 1)%Z with (base + Z.of_nat (length (new ++ [(n, base + Z.of_nat (length new))%Z])))%Z
        by (rewrite app_length; cbn [length]; lia).
      destruct (IH m1 (new ++ [(n, base + Z.of_nat (length new))%Z])) as (m' & add & Ea & Ra & Ia & Na & La & Ca); auto.
      { intros x I J. rewrite map_app, in_app_iff in J. cbn in J. destruct J as [J|[->|[]]]; [|auto]. apply (Dj x); cbn; auto. }
      { rewrite map_app, Cs, app_length. cbn [length map]. rewrite Nat.add_1_r, seq_S, map_app. reflexivity. }
      { rewrite app_length. cbn [length]. lia. }
      exists m', ((n, base + Z.of_nat (length new))%Z :: add). rewrite <- app_assoc in *. cbn [app] in *.
      split; [exact Ea|]. split; [exact Ra|]. split; [|split; [|split; [cbn; lia|exact Ca]]].
      * intros x. cbn. rewrite Ia. split; [intros [<-|[I F]]; auto|]. intros [[->|I] F]; auto.
      * cbn. constructor; auto. intros I. apply Ia in I as [I _]. auto.
Qed.

Lemma core_names_ok : core_names = core_errors.
Proof. reflexivity. Qed.
Lemma core_nodup : NoDup core_names.
Proof. unfold core_names. repeat constructor; cbn; intuition discriminate. Qed.

(** All codes small enough, or nothing left to add. *)
Definition room (s : errs) : Prop :=
  (forall n v, In (n, v) s -> v <= int_max - 8)%Z \/
  ((forall n v, In (n, v) s -> v <= int_max - 1)%Z /\ forall n, In n core_errors -> ~ name_free s n).

Lemma add_names_none s : forall names m b, EM m s -> (forall n, In n names -> ~ name_free s n) -> add_names m names b = Some m.
Proof.
  induction names as [|n names IH]; intros m b R H; cbn; [reflexivity|]. unfold em_exists_name.
  destruct (aget str_eqb (em_vals m) n) eqn:E; [apply IH; auto; intros; apply H; cbn; auto|].
  apply (em_val_none m s n R) in E. destruct (H n); cbn; auto.
Qed.

Lemma add_core_ok m s : EM m s -> room s ->
  exists m' s', em_add_core m = Some m' /\ EM m' s' /\ core_added s s' /\ room s' /\
    forall n, In n core_errors -> ~ name_free s' n.
Proof.
  intros R Rm. unfold em_add_core. pose proof (max_key_ok s) as M. rewrite (er_names _ _ R).
  assert (exists base, match max_key (map swap s) with None => Some 0%Z | Some v => int_incr v end = Some base /\
     (s = [] -> base = 0%Z) /\ (s <> [] -> (exists n, In (n, base - 1)%Z s) /\ forall n v, In (n, v) s -> (v < base)%Z)) as (base & -> & B0 & B1).
  { destruct (max_key (map swap s)) as [x|].
    - destruct M as (Ns & (n & In') & H). exists (x + 1)%Z. unfold int_incr.
      assert (x <= int_max - 1)%Z by (destruct Rm as [Rm|[Rm _]]; specialize (Rm _ _ In'); lia).
      destruct (Z.eqb_spec x int_max); [lia|]. split; [reflexivity|]. split; [contradiction|]. intros _.
      replace (x + 1 - 1)%Z with x by lia. split; [eauto|]. intros n1 v1 I. specialize (H _ _ I). lia.
    - exists 0%Z. split; [reflexivity|]. split; auto. contradiction. }
  destruct Rm as [Rm|[Rm Full]].
  - assert (Bb : (base <= int_max - 7)%Z).
    { destruct s as [|x s]; [rewrite B0 by auto; unfold int_max; lia|].
      destruct (B1 ltac:(discriminate)) as ((n & I) & _). specialize (Rm _ _ I). lia. }
    assert (Lt : forall n v, In (n, v) s -> (v < base)%Z).
    { intros n v I. destruct s as [|x s]; [destruct I|]. destruct (B1 ltac:(discriminate)) as [_ H]. eauto. }
    destruct (add_names_ok s base core_names m []) as (m' & add & Ea & Ra & Ia & Na & La & Ca); auto.
    { rewrite app_nil_r. exact R. } { apply core_nodup. } { cbn. lia. }
    cbn [length Z.of_nat app] in *. rewrite Z.add_0_r in Ea. exists m', (s ++ add). split; [exact Ea|]. split; [exact Ra|].
    assert (Cv : forall n, In n core_errors -> ~ name_free (s ++ add) n).
    { intros n I F. apply name_free_app in F as [F1 F2]. apply F2. apply Ia. rewrite core_names_ok. auto. }
    split; [|split; [|exact Cv]].
    + exists add, base. rewrite core_names_ok in Ia. exact (conj eq_refl (conj Ia (conj Na (conj Ca (conj B0 B1))))).
    + right. split; [|exact Cv]. intros n v I. apply in_app_iff in I as [I|I]; [specialize (Rm _ _ I); lia|].
      apply (in_map snd) in I. rewrite Ca in I. cbn [snd] in I. apply in_map_iff in I as (i & E & I). apply in_seq in I. cbn in La. lia.
  - exists m, s. rewrite (add_names_none s) by (auto; rewrite core_names_ok; auto). split; [reflexivity|]. split; [exact R|].
    split; [|split; [right; auto|exact Full]]. exists [], base. rewrite app_nil_r. split; [reflexivity|].
    split; [|split; [constructor|split; [reflexivity|split; [exact B0|exact B1]]]].
    intros n. split; [intros []|]. intros [I F]. destruct (Full _ I F).
Qed.

Definition eop_ok (o : eop) : Prop := match o with EAdd _ v => (v <= int_max - 8)%Z | _ => True end.
Lemma em_step_ok m s o : EM m s -> room s -> eop_ok o ->
  exists m' x s', em_step m o = Some (m', x) /\ err_ok s o x s' /\ EM m' s' /\ room s' /\
    (forall n v, In (n, v) s -> In (n, v) s').
Proof.
  intros R Rm Ok. destruct o as [n v|n|v|n|v|]; cbn [em_step].
  - pose proof (add_ok m s n v R) as A. destruct (em_add m n v) as [m' b].
    destruct A as [(-> & A & B & R')|(-> & A & ->)].
    + exists m', (EBool true), (s ++ [(n, v)]). split; [reflexivity|]. split; [left; auto|]. split; [auto|]. split.
      * unfold eop_ok in Ok. destruct Rm as [Rm|[Rm Fu]]; [left|right; split].
        -- intros n1 v1 I. apply in_app_iff in I as [I|[I|[]]]; [eauto|]. inversion I; subst. exact Ok.
        -- intros n1 v1 I. apply in_app_iff in I as [I|[I|[]]]; [eauto|]. inversion I; subst. lia.
        -- intros n1 I F. apply (Fu _ I). apply name_free_app in F. tauto.
      * intros. apply in_app_iff. auto.
    + exists m, (EBool false), s. split; [reflexivity|]. split; [right; auto|]. auto.
  - exists m, (EV (em_from_name m n)), s. split; [reflexivity|]. split; [|auto]. split; [reflexivity|]. unfold em_from_name.
    destruct (aget str_eqb (em_vals m) n) eqn:E; [apply (em_val m s n z R)|apply (em_val_none m s n R)]; auto.
  - exists m, (EN (em_to_name m v)), s. split; [reflexivity|]. split; [|auto]. split; [reflexivity|]. unfold em_to_name.
    destruct (aget Z.eqb (em_names m) v) eqn:E; [apply (em_name m s s0 v R)|apply (em_name_none m s v R)]; auto.
  - exists m, (EBool (em_exists_name m n)), s. split; [reflexivity|]. split; [|auto]. split; [reflexivity|]. unfold em_exists_name.
    pose proof (em_val_none m s n R). destruct (aget str_eqb (em_vals m) n) eqn:E; [|tauto]. intros F. apply H in F. discriminate.
  - exists m, (EBool (em_exists_v m v)), s. split; [reflexivity|]. split; [|auto]. split; [reflexivity|]. unfold em_exists_v.
    pose proof (em_name_none m s v R). destruct (aget Z.eqb (em_names m) v) eqn:E; [|tauto]. intros F. apply H in F. discriminate.
  - destruct (add_core_ok m s R Rm) as (m' & s' & -> & R' & C & Rm' & _). exists m', EDone, s'.
    split; [reflexivity|]. split; [split; auto|]. split; [auto|]. split; [auto|].
    destruct C as (new & base & -> & _). intros. apply in_app_iff. auto.
Qed.

(** ** Enums *)
Section Enums.
Variables PE PN : str -> Prop.
Hypothesis inj : forall e n e' n', PE e -> PN n -> PE e' -> PN n' -> full_name e n = full_name e' n' -> e = e' /\ n = n'.

Definition of_enum (e : str) (l : list (str * str * Z)) : list (Z * str) :=
  map (fun x => (snd x, full_name (fst (fst x)) (snd (fst x)))) (filter (fun x => str_eqb (fst (fst x)) e) l).
Record NR (m : enmap) (s : ens) : Prop := {
  nr_vals : en_vals m = map (fun x => (full_name (fst (fst x)) (snd (fst x)), snd x)) (n_entries s);
  nr_enums : en_enums m = map (fun e => (e, of_enum e (n_entries s))) (n_enums s);
  nr_nodup : NoDup (n_enums s);
  nr_pe : Forall PE (n_enums s);
  nr_ent : forall e n v, In (e, n, v) (n_entries s) -> In e (n_enums s) /\ PN n;
  nr_one : forall e n n' v, In (e, n, v) (n_entries s) -> In (e, n', v) (n_entries s) -> n = n';
  nr_one' : forall e n v v', In (e, n, v) (n_entries s) -> In (e, n, v') (n_entries s) -> v = v' }.

Lemma aget_enums (f : str -> list (Z * str)) l e : aget str_eqb (map (fun e => (e, f e)) l) e = if in_dec (list_eq_dec N.eq_dec) e l then Some (f e) else None.
Proof.
  induction l as [|x l IH]; [reflexivity|]. cbn [map aget]. destruct (str_eqb_spec x e) as [->|N].
  - destruct (in_dec (list_eq_dec N.eq_dec) e (e :: l)) as [_|H]; [reflexivity|]. destruct H. cbn; auto.
  - rewrite IH. destruct (in_dec (list_eq_dec N.eq_dec) e l), (in_dec (list_eq_dec N.eq_dec) e (x :: l)) as [J|J]; auto;
      cbn [In] in J; intuition congruence.
Qed.
Lemma in_of_enum e l v name : In (v, name) (of_enum e l) <-> exists n, In (e, n, v) l /\ name = full_name e n.
Proof.
  unfold of_enum. rewrite in_map_iff. split.
  - intros ([[e' n] v'] & E & I). cbn in E. injection E as <- <-. apply filter_In in I as [I Q]. cbn in Q.
    destruct (str_eqb_spec e' e); [subst; eauto|discriminate].
  - intros (n & I & ->). exists (e, n, v). split; [reflexivity|]. apply filter_In. split; auto. cbn. destruct (str_eqb_spec e e); congruence.
Qed.
Lemma aset_enums (f g : str -> list (Z * str)) l e : NoDup l -> In e l -> (forall x, x <> e -> f x = g x) ->
  aset str_eqb (map (fun e => (e, f e)) l) e (g e) = map (fun e => (e, g e)) l.
Proof.
  intros Nd I H. induction l as [|x l IH]; [destruct I|]. inversion Nd as [|? ? N1 N2]; subst. cbn.
  destruct (str_eqb_spec x e) as [->|N].
  - f_equal. apply map_ext_in. intros y J. f_equal. apply H. congruence.
  - rewrite IH; auto. { rewrite (H x N). reflexivity. } destruct I; [contradiction|auto].
Qed.
Lemma NR_to m s e v : NR m s -> In e (n_enums s) -> forall name, aget Z.eqb (of_enum e (n_entries s)) v = Some name <->
  exists n, In (e, n, v) (n_entries s) /\ name = full_name e n.
Proof.
  intros R I name. rewrite aget_some; [apply in_of_enum|apply Z.eqb_spec|].
  intros a b A B. apply in_of_enum in A as (n & A & ->). apply in_of_enum in B as (n' & B & ->).
  rewrite (nr_one _ _ R _ _ _ _ A B). reflexivity.
Qed.

Lemma en_step_ok m s o : NR m s ->
  match o with NEnum e => PE e | NEntry _ n _ => PN n | _ => True end ->
  let (m', x) := en_step m o in exists s', en_ok s o x s' /\ NR m' s'.
Proof.
  intros R Ok. destruct o as [e|e n v|name|e v]; cbn [en_step].
  - unfold en_add_enum. rewrite (nr_enums _ _ R), aget_enums.
    destruct (in_dec (list_eq_dec N.eq_dec) e (n_enums s)) as [I|I]; cbn [fst].
    + exists s. split; [right; auto|exact R].
    + exists (mkEns (n_enums s ++ [e]) (n_entries s)). split; [left; auto|].
      destruct R as [A B C D E F G]. constructor; cbn; auto.
      * rewrite aset_new. 2:{ rewrite aget_enums. destruct (in_dec (list_eq_dec N.eq_dec) e (n_enums s)); [contradiction|reflexivity]. }
        rewrite map_app. cbn. f_equal. f_equal. f_equal. unfold of_enum.
        assert (X : filter (fun x => str_eqb (fst (fst x)) e) (n_entries s) = []); [|rewrite X; reflexivity].
        clear - E I. induction (n_entries s) as [|[[e' n'] v'] l IH]; [reflexivity|]. cbn.
        destruct (str_eqb_spec e' e) as [->|N]; [destruct I; apply (E e n' v'); cbn; auto|]. apply IH. intros. apply (E e0 n v). cbn; auto.
      * clear - C I. induction C as [|a l C1 C2 IH]; cbn; [repeat constructor; auto|]. constructor.
        -- rewrite in_app_iff. cbn in *. intuition congruence.
        -- apply IH. cbn in I. tauto.
      * apply Forall_app. split; auto.
      * intros e0 n0 v0 J. destruct (E _ _ _ J). split; auto. apply in_app_iff. auto.
  - unfold en_add_entry. rewrite (nr_enums _ _ R), aget_enums.
    destruct (in_dec (list_eq_dec N.eq_dec) e (n_enums s)) as [I|I]; cbn [fst].
    2:{ exists s. split; [|exact R]. right. repeat split; auto. intros [J _]. contradiction. }
    destruct (aget Z.eqb (of_enum e (n_entries s)) v) as [name|] eqn:Ev.
    { exists s. split; [|exact R]. right. repeat split; auto. intros [_ J].
      apply (NR_to m s e v R I) in Ev as (n' & I' & _). destruct (J _ _ I') as [_ X]. apply X. reflexivity. }
    assert (Vf : forall n', ~ In (e, n', v) (n_entries s)).
    { intros n' J. assert (X : aget Z.eqb (of_enum e (n_entries s)) v = Some (full_name e n')) by (apply (NR_to m s e v R I); eauto). congruence. }
    change (e ++ dot :: n) with (full_name e n). cbn zeta. destruct (aget str_eqb (en_vals m) (full_name e n)) as [v0|] eqn:En.
    { exists s. split; [|exact R]. right. repeat split; auto. intros [_ J].
      apply (aget_in _ str_eqb_spec) in En. rewrite (nr_vals _ _ R) in En. apply in_map_iff in En as ([[e1 n1] v1] & E1 & I1). cbn in E1.
      injection E1 as E1 ->. destruct (nr_ent _ _ R _ _ _ I1) as [P1 P2]. pose proof (nr_pe _ _ R) as Fp. rewrite Forall_forall in Fp.
      destruct (inj e1 n1 e n) as [-> ->]; auto. destruct (J _ _ I1) as [X _]. apply X. reflexivity. }
    assert (Nf : forall v', ~ In (e, n, v') (n_entries s)).
    { intros v' J. rewrite (aget_none _ str_eqb_spec) in En. apply (En v'). rewrite (nr_vals _ _ R). apply in_map_iff.
      exists (e, n, v'). auto. }
    exists (mkEns (n_enums s) (n_entries s ++ [(e, n, v)])). split.
    { left. split; [reflexivity|]. split; [|reflexivity]. split; [exact I|]. intros n' v' J. split; intros ->; [apply (Nf v')|apply (Vf n')]; exact J. }
    destruct R as [A B C D E F G]. constructor; cbn [en_vals en_enums n_entries n_enums]; auto.
    + rewrite aset_new by exact En. rewrite A, map_app. reflexivity.
    + rewrite (aset_new Z.eqb) by exact Ev.
      replace (of_enum e (n_entries s) ++ [(v, full_name e n)]) with (of_enum e (n_entries s ++ [(e, n, v)])).
      * apply (aset_enums (fun e => of_enum e (n_entries s)) (fun y => of_enum y (n_entries s ++ [(e, n, v)])) (n_enums s) e); auto.
        intros x Nx. unfold of_enum. rewrite filter_app. cbn. destruct (str_eqb_spec e x); [congruence|]. rewrite app_nil_r. reflexivity.
      * unfold of_enum. rewrite filter_app, map_app. cbn. destruct (str_eqb_spec e e); [reflexivity|congruence].
    + intros e1 n1 v1 J. apply in_app_iff in J as [J|[J|[]]]; [eauto|]. inversion J; subst. auto.
    + intros e1 n1 n2 v1 J K. apply in_app_iff in J, K. cbn in J, K. destruct J as [J|[J|[]]], K as [K|[K|[]]]; try congruence.
      * eauto. * inversion K; subst. destruct (Vf _ J). * inversion J; subst. destruct (Vf _ K).
    + intros e1 n1 v1 v2 J K. apply in_app_iff in J, K. cbn in J, K. destruct J as [J|[J|[]]], K as [K|[K|[]]]; try congruence.
      * eauto. * inversion K; subst. destruct (Nf _ J). * inversion J; subst. destruct (Nf _ K).
  - exists s. split; [|exact R]. split; [reflexivity|]. unfold en_from_name.
    destruct (aget str_eqb (en_vals m) name) as [v|] eqn:E.
    + apply (aget_in _ str_eqb_spec) in E. rewrite (nr_vals _ _ R) in E. apply in_map_iff in E as ([[e n] v'] & E & I).
      cbn in E. injection E as <- ->. eauto.
    + intros e n v I ->. rewrite (aget_none _ str_eqb_spec) in E. apply (E v). rewrite (nr_vals _ _ R). apply in_map_iff.
      exists (e, n, v). auto.
  - exists s. split; [|exact R]. split; [reflexivity|]. unfold en_to_name. rewrite (nr_enums _ _ R), aget_enums.
    destruct (in_dec (list_eq_dec N.eq_dec) e (n_enums s)) as [I|I].
    + destruct (aget Z.eqb _ v) as [name|] eqn:E; [apply (NR_to m s e v R I); auto|].
      intros n J. assert (X : aget Z.eqb (of_enum e (n_entries s)) v = Some (full_name e n)) by (apply (NR_to m s e v R I); eauto). congruence.
    + intros n J. apply (nr_ent _ _ R) in J. tauto.
Qed.

Lemma en_run_ok ops : forall m s, NR m s ->
  Forall (fun o => match o with NEnum e => PE e | NEntry _ n _ => PN n | _ => True end) ops ->
  exists s', ens_run s ops (snd (en_run m ops)) s' /\ NR (fst (en_run m ops)) s'.
Proof.
  induction ops as [|o ops IH]; intros m s R F; cbn [en_run].
  - exists s. split; [reflexivity|exact R].
  - inversion F as [|? ? F1 F2]; subst. pose proof (en_step_ok m s o R F1) as S.
    destruct (en_step m o) as [m1 x]. destruct S as (s1 & A & B). destruct (IH m1 s1 B F2) as (s2 & C & D).
    destruct (en_run m1 ops) as [m2 xs]. cbn [fst snd] in *. exists s2. split; [exists s1; auto|exact D].
Qed.
Lemma NR_new : NR en_new (mkEns [] []).
Proof. constructor; cbn; auto; try constructor; intros; contradiction. Qed.
End Enums.

Lemma last_dot_unique e n e' n' : ~ In dot n -> ~ In dot n' -> full_name e n = full_name e' n' -> e = e' /\ n = n'.
Proof.
  intros A B H. assert (R : rev n ++ dot :: rev e = rev n' ++ dot :: rev e').
  { unfold full_name in H. apply (f_equal (@rev N)) in H. rewrite !rev_app_distr in H. cbn in H. rewrite <- !app_assoc in H. exact H. }
  assert (A' : ~ In dot (rev n)) by (rewrite <- in_rev; auto). assert (B' : ~ In dot (rev n')) by (rewrite <- in_rev; auto).
  enough (rev n = rev n' /\ rev e = rev e') as [X Y].
  { split; apply (f_equal (@rev N)) in X, Y; rewrite !rev_involutive in *; auto. }
  revert R A' B'. generalize (rev n) (rev n') (rev e) (rev e'). clear. induction l as [|x l IH]; intros [|y r] p q E A B; cbn in *.
  - injection E as ->. auto.
  - injection E as <- _. tauto.
  - injection E as -> _. tauto.
  - injection E as -> E. destruct (IH r p q E) as [-> ->]; auto.
Qed.
Lemma first_dot_unique e n e' n' : ~ In dot e -> ~ In dot e' -> full_name e n = full_name e' n' -> e = e' /\ n = n'.
Proof.
  unfold full_name. revert e'. induction e as [|x e IH]; intros [|y e'] A B E; cbn in *.
  - injection E as ->. auto.
  - injection E as <- _. tauto.
  - injection E as -> _. tauto.
  - injection E as -> E. destruct (IH e') as [-> ->]; auto.
Qed.
