(** C48: error codes and enum entries are one-to-one with their names, refused additions change
    nothing, and the errors of core.p4 always get codes of their own. *)
From Coq Require Import List Arith NArith ZArith Bool Lia Ascii String.
From Verif Require Import NameMapModel NameMapSpec NameMapProofs.
Import ListNotations.
Local Open Scope list_scope.

(** For every sequence of calls whose explicit codes leave room for the core errors: each call
    answers as the set of defined pairs says, a refused addition leaves the set as it was, and the
    set stays one-to-one; no code is the invalid code. *)
Theorem C48_errors : forall ops,
  (forall n v, In (EAdd n v) ops -> (v <= 2147483639)%Z) ->
  exists m outs s, em_run em_new ops = Some (m, outs) /\ errs_run [] ops outs s /\ one_to_one s /\
    (forall n v, In (n, v) s -> v <> invalid_code /\ em_from_name m n = Some v /\ em_to_name m v = Some n).
Proof.
  intros ops G.
  enough (H : forall ops m s, EM m s -> room s -> (forall n v, In (EAdd n v) ops -> (v <= int_max - 8)%Z) ->
    exists m' outs s', em_run m ops = Some (m', outs) /\ errs_run s ops outs s' /\ EM m' s' /\ room s').
  { destruct (H ops em_new []) as (m & outs & s & A & B & C & D); auto.
    { constructor; try reflexivity. repeat split; cbn; try tauto. constructor. } { left. intros ? ? []. }
    exists m, outs, s. split; [exact A|]. split; [exact B|]. split; [apply C|]. intros n v I. split; [|split].
    - unfold invalid_code. destruct D as [D|[D _]]; specialize (D _ _ I); lia.
    - apply (em_val m s n v C). exact I.
    - apply (em_name m s n v C). exact I. }
  clear. induction ops as [|o ops IH]; intros m s R Rm G.
  - exists m, [], s. repeat split; auto; apply R.
  - destruct (em_step_ok m s o R Rm) as (m1 & x & s1 & E & K & R1 & Rm1 & _).
    { destruct o; cbn; auto. apply (G n v). cbn; auto. }
    destruct (IH m1 s1 R1 Rm1) as (m' & xs & s' & A & B & C & D). { intros n v I. apply (G n v). cbn; auto. }
    exists m', (x :: xs), s'. cbn [em_run]. rewrite E, A. split; [reflexivity|]. split; [exists s1; auto|auto].
Qed.

(** Once the core errors have been added, each of them has a code, for good, and different core
    errors have different codes. *)
Theorem C48_core_defined : forall before after,
  (forall n v, In (EAdd n v) (before ++ ECore :: after) -> (v <= 2147483639)%Z) ->
  exists m outs, em_run em_new (before ++ ECore :: after) = Some (m, outs) /\
    (forall i name, nth_error core_errors i = Some name ->
       exists v, em_from_core m i = Some v /\ em_from_name m name = Some v /\ em_to_name m v = Some name) /\
    (forall i j v, em_from_core m i = Some v -> em_from_core m j = Some v -> i = j).
Proof.
  intros before after G.
  assert (H : forall ops m s, EM m s -> room s -> (forall n v, In (EAdd n v) ops -> (v <= int_max - 8)%Z) ->
    exists m' outs s', em_run m ops = Some (m', outs) /\ EM m' s' /\ room s' /\ (forall n, ~ name_free s n -> ~ name_free s' n)).
  { clear. induction ops as [|o ops IH]; intros m s R Rm G.
    - exists m, [], s. split; [reflexivity|]. auto.
    - destruct (em_step_ok m s o R Rm) as (m1 & x & s1 & E & K & R1 & Rm1 & Inc).
      { destruct o; cbn; auto. apply (G n v). cbn; auto. }
      destruct (IH m1 s1 R1 Rm1) as (m' & xs & s' & A & B & C & D). { intros n v I. apply (G n v). cbn; auto. }
      exists m', (x :: xs), s'. cbn [em_run]. rewrite E, A. split; [reflexivity|]. split; [exact B|]. split; [exact C|].
      intros n N. apply D. intros F. apply N. intros v I. apply (F v). auto. }
  destruct (H before em_new []) as (m1 & o1 & s1 & A1 & R1 & Rm1 & _).
  { constructor; try reflexivity. repeat split; cbn; try tauto. constructor. } { left. intros ? ? []. }
  { intros n v I. apply (G n v). apply in_app_iff. auto. }
  destruct (add_core_ok m1 s1 R1 Rm1) as (m2 & s2 & A2 & R2 & _ & Rm2 & Cv).
  destruct (H after m2 s2 R2 Rm2) as (m3 & o3 & s3 & A3 & R3 & _ & K3).
  { intros n v I. apply (G n v). apply in_app_iff. cbn. auto. }
  assert (Run : forall l1 l2 m, em_run m (l1 ++ l2) = match em_run m l1 with
     | Some (m', xs) => match em_run m' l2 with Some (m'', ys) => Some (m'', xs ++ ys) | None => None end | None => None end).
  { clear. induction l1 as [|o l1 IH]; intros l2 m; cbn; [destruct (em_run m l2) as [[? ?]|]; reflexivity|].
    destruct (em_step m o) as [[m' x]|]; [|reflexivity]. rewrite IH. destruct (em_run m' l1) as [[m2 xs]|]; [|reflexivity].
    destruct (em_run m2 l2) as [[? ?]|]; reflexivity. }
  exists m3, (o1 ++ EDone :: o3). split.
  { rewrite Run, A1. cbn [em_run em_step]. rewrite A2, A3. reflexivity. }
  assert (Df : forall i name, nth_error core_errors i = Some name -> exists v, em_from_core m3 i = Some v /\ In (name, v) s3).
  { intros i name E. unfold em_from_core. rewrite core_names_ok, E.
    assert (U : ~ name_free s3 name) by (apply K3, Cv; eapply nth_error_In; eauto).
    destruct (aget str_eqb (em_vals m3) name) as [v|] eqn:Ev; [|apply (em_val_none m3 s3 name R3) in Ev; contradiction].
    exists v. split; [reflexivity|]. apply (em_val m3 s3 name v R3). exact Ev. }
  split.
  - intros i name E. destruct (Df i name E) as (v & Ev & I). exists v. split; [exact Ev|].
    split; [apply (em_val m3 s3 name v R3)|apply (em_name m3 s3 name v R3)]; exact I.
  - intros i j v Ei Ej. unfold em_from_core in *. pose proof core_nodup as Nd.
    destruct (nth_error core_names i) as [n1|] eqn:N1; [|discriminate].
    destruct (nth_error core_names j) as [n2|] eqn:N2; [|discriminate].
    apply (em_val m3 s3 _ _ R3) in Ei, Ej. assert (n1 = n2) by (eapply (er_one m3 s3 R3); eauto). subst.
    eapply (proj1 (NoDup_nth_error core_names)); [exact Nd| |congruence]. apply nth_error_Some. congruence.
Qed.

(** Without room for them, adding the core errors overflows an int. *)
Theorem C48_core_overflow_refuted : ~ (forall ops,
  (forall n v, In (EAdd n v) ops -> (v <= 2147483647)%Z) -> exists r, em_run em_new ops = Some r).
Proof.
  intros H. destruct (H [EAdd (codes "Mine") 2147483647; ECore]) as [r E].
  { cbn. intros n v [I|[I|[]]]; [injection I as <- <-; lia|discriminate]. } vm_compute in E. discriminate.
Qed.
(** And an error can be given the code that stands for an invalid error. *)
Theorem C48_invalid_code_distinct_refuted : ~ (forall ops m outs n v,
  em_run em_new ops = Some (m, outs) -> em_from_name m n = Some v -> v <> invalid_code).
Proof.
  intros H. apply (H [EAdd (codes "Mine") 2147483647]
    (fst (em_add em_new (codes "Mine") 2147483647)) [EBool true] (codes "Mine") 2147483647%Z); reflexivity.
Qed.

(** For every sequence of calls in which no entry name, or no enum name, has a dot: each call
    answers as the set of enums and entries says, a refused addition leaves the set as it was, and
    within an enum values and names are one-to-one. *)
Definition plain (ops : list nop) : Prop :=
  (forall e n v, In (NEntry e n v) ops -> ~ In 46%N n) \/ (forall e, In (NEnum e) ops -> ~ In 46%N e).
Theorem C48_enums : forall ops, plain ops ->
  exists s, ens_run (mkEns [] []) ops (snd (en_run en_new ops)) s /\
    (forall e n n' v, In (e, n, v) (n_entries s) -> In (e, n', v) (n_entries s) -> n = n') /\
    (forall e n v v', In (e, n, v) (n_entries s) -> In (e, n, v') (n_entries s) -> v = v') /\
    (forall e n v, In (e, n, v) (n_entries s) ->
       en_from_name (fst (en_run en_new ops)) (full_name e n) = Some v /\
       en_to_name (fst (en_run en_new ops)) e v = Some (full_name e n)).
Proof.
  enough (H : forall (PE PN : str -> Prop),
    (forall e n e' n', PE e -> PN n -> PE e' -> PN n' -> full_name e n = full_name e' n' -> e = e' /\ n = n') ->
    forall ops, Forall (fun o => match o with NEnum e => PE e | NEntry _ n _ => PN n | _ => True end) ops ->
    exists s, ens_run (mkEns [] []) ops (snd (en_run en_new ops)) s /\
    (forall e n n' v, In (e, n, v) (n_entries s) -> In (e, n', v) (n_entries s) -> n = n') /\
    (forall e n v v', In (e, n, v) (n_entries s) -> In (e, n, v') (n_entries s) -> v = v') /\
    (forall e n v, In (e, n, v) (n_entries s) ->
       en_from_name (fst (en_run en_new ops)) (full_name e n) = Some v /\
       en_to_name (fst (en_run en_new ops)) e v = Some (full_name e n))).
  { intros ops [P|P].
    - apply (H (fun _ => True) (fun n => ~ In 46%N n)).
      + intros. apply last_dot_unique; auto.
      + apply Forall_forall. intros [e|e n v|x|e v] I; auto. apply (P e n v I).
    - apply (H (fun e => ~ In 46%N e) (fun _ => True)).
      + intros. apply first_dot_unique; auto.
      + apply Forall_forall. intros [e|e n v|x|e v] I; auto. }
  intros PE PN inj ops F. destruct (en_run_ok PE PN inj ops en_new (mkEns [] []) (NR_new PE PN) F) as (s & A & R).
  exists s. split; [exact A|]. split; [apply (nr_one _ _ _ _ R)|]. split; [apply (nr_one' _ _ _ _ R)|].
  intros e n v I. split.
  - unfold en_from_name. rewrite (nr_vals _ _ _ _ R). apply aget_some; [apply str_eqb_spec| |].
    + intros v1 v2 I1 I2. apply in_map_iff in I1 as ([[e1 n1] w1] & E1 & I1). apply in_map_iff in I2 as ([[e2 n2] w2] & E2 & I2).
      cbn [fst snd] in E1, E2. injection E1 as E1 <-. injection E2 as E2 <-. pose proof (nr_pe _ _ _ _ R) as Fp. rewrite Forall_forall in Fp.
      destruct (nr_ent _ _ _ _ R _ _ _ I1), (nr_ent _ _ _ _ R _ _ _ I2).
      destruct (inj e1 n1 e2 n2) as [-> ->]; auto; [congruence|]. eapply (nr_one' _ _ _ _ R); eauto.
    + apply in_map_iff. exists (e, n, v). auto.
  - unfold en_to_name. rewrite (nr_enums _ _ _ _ R), aget_enums.
    destruct (nr_ent _ _ _ _ R _ _ _ I) as [Ie _].
    destruct (in_dec (list_eq_dec N.eq_dec) e (n_enums s)) as [_|N]; [|contradiction]. apply (NR_to PE PN _ s e v R Ie). eauto.
Qed.

(** With dots, different entries of different enums can have the same full name; the second is
    refused although its enum has neither the name nor the value. *)
Theorem C48_dotted_names_refuted : ~ (forall ops, exists s, ens_run (mkEns [] []) ops (snd (en_run en_new ops)) s).
Proof.
  intros H. destruct (H [NEnum (codes "a"); NEnum (codes "a.b"); NEntry (codes "a") (codes "b.c") 1; NEntry (codes "a.b") (codes "c") 1])
    as (s & A).
  assert (X : snd (en_run en_new [NEnum (codes "a"); NEnum (codes "a.b"); NEntry (codes "a") (codes "b.c") 1;
     NEntry (codes "a.b") (codes "c") 1]) = [EBool true; EBool true; EBool true; EBool false]) by reflexivity.
  rewrite X in A. destruct A as (s1 & A1 & s2 & A2 & s3 & A3 & s4 & A4 & _).
  destruct A1 as [(_ & _ & ->)|(Y & _)]; [|discriminate Y]. destruct A2 as [(_ & _ & ->)|(Y & _)]; [|discriminate Y].
  destruct A3 as [(_ & _ & ->)|(Y & _)]; [|discriminate Y]. destruct A4 as [(Y & _)|(_ & N & _)]; [discriminate Y|].
  apply N. split; [vm_compute; auto|]. intros n' v' [I|[]]. discriminate I.
Qed.

(** A run that meets the guards and does something. *)
Example C48_errors_example :
  em_run em_new [EAdd (codes "Mine") 5; EAdd (codes "NoMatch") 2; ECore; EName (codes "NoError"); EName (codes "NoMatch"); EAdd (codes "Other") 6] =
  Some (fst (match em_run em_new [EAdd (codes "Mine") 5; EAdd (codes "NoMatch") 2; ECore] with Some r => r | None => (em_new, []) end),
        [EBool true; EBool true; EDone; EV (Some 6%Z); EV (Some 2%Z); EBool false]).
Proof. reflexivity. Qed.
Example C48_enums_example :
  snd (en_run en_new [NEnum (codes "e"); NEntry (codes "e") (codes "x") 1; NEntry (codes "e") (codes "y") 1; NEntry (codes "f") (codes "x") 1;
     NTo (codes "e") 1; NFrom (codes "e.x")]) =
  [EBool true; EBool true; EBool false; EBool false; EN (Some (codes "e.x")); EV (Some 1%Z)].
Proof. reflexivity. Qed.

Print Assumptions C48_errors.
Print Assumptions C48_core_defined.
Print Assumptions C48_core_overflow_refuted.
Print Assumptions C48_invalid_code_distinct_refuted.
Print Assumptions C48_enums.
Print Assumptions C48_dotted_names_refuted.
