(** C10: direct match tables, end to end from API calls and packet field values. *)
From Coq Require Import List Arith NArith ZArith Bool Lia Sorted.
From Verif Require Import Base Bits Bytes EntryListModel MatchUnitModel KeyBuilderModel KeyBuilderSpec
  KeyBuilderProps TableModel TableSpec TableProofs.
Import ListNotations.

(** Every call of every history answers according to the rows, default and immutability that a
    client computes from the earlier calls and their results. *)
Theorem C10_table_history : forall kd c fs size cache ops,
  layout_ok kd fs -> lpm_aligned fs -> (N.of_nat size <= 2 ^ 24)%N -> tops_ok c fs 0 ops ->
  exists t outs, t_run kd c (kb_build fs) (t_new kd c size cache) ops = Some (t, outs) /\
    history_ok kd c fs size no_rows None false ops outs.
Proof.
  intros kd c fs size cache ops HL HA HS Ho.
  eapply TI_run with (s := MatchUnitSpec.tab_empty); eauto. apply TI_new.
Qed.
Print Assumptions C10_table_history.

(** The client's view after a history. *)
Fixpoint rows_after (s : nat -> option row) (ops : list top) (outs : list tout) : nat -> option row :=
  match ops, outs with o :: os, x :: xs => rows_after (row_step s o x) os xs | _, _ => s end.
Fixpoint default_after (d : option (nat * list N)) (ops : list top) (outs : list tout) :=
  match ops, outs with o :: os, x :: xs => default_after (dflt_step d o x) os xs | _, _ => d end.

Lemma history_split kd c fs size p : forall o rows d im po x,
  length po = length p -> history_ok kd c fs size rows d im (p ++ [o]) (po ++ [x]) ->
  call_spec kd c fs size (rows_after rows p po) (default_after d p po) (fold_left imm_step p im) o x.
Proof.
  induction p as [|a p IH]; intros o rows d im [|y po] x L H; cbn in L; try lia.
  - destruct H as [H _]. exact H.
  - destruct H as [_ H]. cbn. apply IH; auto.
Qed.

Lemma history_len kd c fs size ops : forall rows d im outs,
  history_ok kd c fs size rows d im ops outs -> length outs = length ops.
Proof.
  induction ops as [|o ops IH]; intros rows d im [|x outs] H; cbn in *; auto; try contradiction.
  f_equal. eapply IH. apply H.
Qed.

(** Applying the table after any history: the winning row's action and data, or the current
    default. *)
Theorem C10_apply : forall kd c fs size cache ops ts len phv,
  layout_ok kd fs -> lpm_aligned fs -> (N.of_nat size <= 2 ^ 24)%N ->
  tops_ok c fs 0 (ops ++ [TApply ts len phv]) ->
  exists t outs x,
    t_run kd c (kb_build fs) (t_new kd c size cache) (ops ++ [TApply ts len phv]) = Some (t, outs ++ [x]) /\
    length outs = length ops /\
    apply_spec kd c fs (rows_after no_rows ops outs) (default_after None ops outs) phv x.
Proof.
  intros kd c fs size cache ops ts len phv HL HA HS Ho.
  destruct (C10_table_history kd c fs size cache _ HL HA HS Ho) as (t & outs & R & H).
  pose proof (history_len _ _ _ _ _ _ _ _ _ H) as L. rewrite app_length in L; cbn in L.
  destruct (@exists_last _ outs) as (o1 & x & ->); [intros ->; cbn in L; lia|].
  rewrite app_length in L; cbn in L. exists t, o1, x. split; [exact R|]. split; [lia|].
  apply history_split in H; [|lia]. exact H.
Qed.
Print Assumptions C10_apply.

(** A constant default entry is never replaced. *)
Theorem C10_const_default_entry : forall kd c fs size cache ops t outs,
  layout_ok kd fs -> lpm_aligned fs -> (N.of_nat size <= 2 ^ 24)%N -> tops_ok c fs 0 ops ->
  c_const_entry c = true ->
  t_run kd c (kb_build fs) (t_new kd c size cache) ops = Some (t, outs) ->
  default_after None ops outs = None.
Proof.
  intros kd c fs size cache ops t outs HL HA HS Ho CE R.
  destruct (C10_table_history kd c fs size cache _ HL HA HS Ho) as (t' & outs' & R' & H).
  rewrite R in R'. injection R' as <- <-. clear R Ho.
  revert H. generalize no_rows false. revert outs.
  induction ops as [|o ops IH]; intros [|x outs] rows im H; cbn in *; auto.
  destruct H as [H1 H2].
  assert (E : dflt_step None o x = None).
  { destruct o; cbn; auto; [|destruct reset_default; auto]. cbn in H1. rewrite CE in H1. subst x. reflexivity. }
  rewrite E in *. eapply IH; eauto.
Qed.
Print Assumptions C10_const_default_entry.

(** A constant default action can only be given other data. *)
Theorem C10_const_default_action : forall kd c fs size cache ops t outs f,
  layout_ok kd fs -> lpm_aligned fs -> (N.of_nat size <= 2 ^ 24)%N -> tops_ok c fs 0 ops ->
  c_const_action c = Some f ->
  t_run kd c (kb_build fs) (t_new kd c size cache) ops = Some (t, outs) ->
  forall fn data, default_after None ops outs = Some (fn, data) -> fn = f.
Proof.
  intros kd c fs size cache ops t outs f HL HA HS Ho CE R.
  destruct (C10_table_history kd c fs size cache _ HL HA HS Ho) as (t' & outs' & R' & H).
  rewrite R in R'. injection R' as <- <-. clear R Ho.
  assert (G : forall ops d rows im outs, history_ok kd c fs size rows d im ops outs ->
    (forall fn data, d = Some (fn, data) -> fn = f) ->
    forall fn data, default_after d ops outs = Some (fn, data) -> fn = f).
  2:{ apply (G ops None no_rows false outs H). intros; discriminate. }
  clear H. clear ops outs. induction ops as [|o ops IH]; intros d rows im [|x outs] H HD; cbn in *; auto.
  destruct H as [H1 H2]. eapply IH; eauto.
  intros fn data. destruct o; cbn; try (apply HD); try (intros; discriminate).
  - destruct (ok_code x) eqn:E; [|apply HD]. intros Q. injection Q as -> ->. cbn in H1. rewrite CE in H1.
    destruct (c_const_entry c); [subst x; discriminate|].
    destruct (Nat.eqb_spec f fn); auto. cbn in H1. subst x. discriminate.
  - destruct reset_default; [discriminate|apply HD].
Qed.
Print Assumptions C10_const_default_action.

(** Once a table is immutable its rows stay, as long as it is not cleared. *)
Definition not_clear (o : top) : Prop := match o with TClear _ => False | _ => True end.

(** A row without its counters. *)
Definition content (r : row) := (r_handle r, r_params r, r_prio r, r_fn r, r_data r).
Definition same_content (f g : nat -> option row) : Prop :=
  forall i, option_map content (f i) = option_map content (g i).

Lemma imm_rows kd c fs size ops : forall rows d outs, history_ok kd c fs size rows d true ops outs ->
  Forall not_clear ops -> same_content (rows_after rows ops outs) rows.
Proof.
  induction ops as [|o ops IH]; intros rows d [|x outs] H F i; cbn in *; auto.
  inversion F as [|? ? F1 F2]; subst. destruct H as [H1 H2].
  assert (I : imm_step true o = true) by (destruct o; reflexivity). rewrite I in *.
  rewrite (IH _ _ _ H2 F2 i). clear IH H2.
  assert (P : forall r b p k, rows k = Some r ->
            option_map content (put rows k (Some (set_counts r b p)) i) = option_map content (rows i)).
  { intros r b p k W. unfold put. destruct (Nat.eqb_spec i k) as [->|]; auto. rewrite W. reflexivity. }
  assert (P0 : forall k, rows k = None -> option_map content (put rows k None i) = option_map content (rows i)).
  { intros k W. unfold put. destruct (Nat.eqb_spec i k) as [->|]; auto. rewrite W. reflexivity. }
  destruct o; cbn in *; auto; try (subst x; reflexivity); try contradiction.
  - destruct x; auto. destruct hit; auto. destruct (rows (N.to_nat n)) eqn:W; auto.
  - destruct (ok_code x); auto. destruct (rows (slot_num h)) eqn:W; auto.
  - destruct (ok_code x); auto. destruct (rows i); auto.
Qed.

Theorem C10_immutable_rows_stay : forall kd c fs size cache p q t po qo,
  layout_ok kd fs -> lpm_aligned fs -> (N.of_nat size <= 2 ^ 24)%N ->
  tops_ok c fs 0 (p ++ TSetImmutable :: q) -> Forall not_clear q -> length po = S (length p) ->
  t_run kd c (kb_build fs) (t_new kd c size cache) (p ++ TSetImmutable :: q) = Some (t, po ++ qo) ->
  same_content (rows_after no_rows (p ++ TSetImmutable :: q) (po ++ qo))
               (rows_after no_rows (p ++ [TSetImmutable]) po).
Proof.
  intros kd c fs size cache p q t po qo HL HA HS Ho F L R.
  destruct (C10_table_history kd c fs size cache _ HL HA HS Ho) as (t' & outs' & R' & H).
  rewrite R in R'. injection R' as <- <-. clear R Ho.
  revert H. generalize no_rows (@None (nat * list N)) false. revert po L.
  induction p as [|o p IH]; intros [|x po] L rows d im H; cbn in L; try lia.
  - destruct po; cbn in L; [|lia]. cbn in *. destruct H as [_ H]. eapply imm_rows; eauto.
  - cbn in *. destruct H as [_ H]. eapply IH; eauto.
Qed.
Print Assumptions C10_immutable_rows_stay.

(** Finding: clearing a table (mt_clear_entries, reset_state) ignores immutability and removes
    the constant entries; nothing can put them back. *)
Definition ex_cfg : tcfg :=
  mkCfg (fun _ => 1) (fun a => Some (Some (10 + a))) None (Some (Some 99))
        (mkA None [] (Some 99)) false None true true.
Definition ex_fs : list kfield := [mkF TExact 8 None 0].
Definition ex_phv (v : N) : nat -> pfield := fun _ => mkPF true false [v].
Definition ex_ps (v : N) : list param := [mkParam TExact [v] [] 0].

Lemma ex_layout : layout_ok KExact ex_fs /\ lpm_aligned ex_fs.
Proof.
  split.
  - split; [|split; [|discriminate]]; constructor; auto; cbn.
    + unfold field_ok; cbn. split; [lia|]. split; [lia|]. split; discriminate.
    + auto.
  - constructor; auto.
Qed.

Theorem C10_immutable_cleared_refuted :
  ~ (forall kd c fs size cache ops t outs,
       layout_ok kd fs -> lpm_aligned fs -> (N.of_nat size <= 2 ^ 24)%N -> tops_ok c fs 0 ops ->
       t_run kd c (kb_build fs) (t_new kd c size cache) ops = Some (t, outs) ->
       forall p q po qo, ops = p ++ TSetImmutable :: q -> outs = po ++ qo -> length po = S (length p) ->
       same_content (rows_after no_rows ops outs) (rows_after no_rows (p ++ [TSetImmutable]) po)).
Proof.
  intros H. destruct ex_layout as [HL HA].
  pose (ops := [TAdd 0 (ex_ps 7) 0 3 [42%N]; TSetImmutable; TClear false]).
  destruct (t_run KExact ex_cfg (kb_build ex_fs) (t_new KExact ex_cfg 4 false) ops) as [[t outs]|] eqn:E;
    [|vm_compute in E; discriminate].
  assert (O : tops_ok ex_cfg ex_fs 0 ops).
  { cbn. unfold param_typed, bytes_ok; cbn. repeat split; repeat constructor; cbn; try lia; try discriminate. }
  assert (EO : outs = [THandle 0; TDone; TDone]) by (vm_compute in E; congruence).
  subst outs.
  specialize (H KExact ex_cfg ex_fs 4 false ops t _ HL HA ltac:(cbn; lia) O E
                [TAdd 0 (ex_ps 7) 0 3 [42%N]] [TClear false] [THandle 0; TDone] [TDone] eq_refl eq_refl eq_refl).
  specialize (H 0). vm_compute in H. discriminate.
Qed.
Print Assumptions C10_immutable_cleared_refuted.

(** Non-vacuity: a history with two rows, a default and packets that hit and miss. *)
Definition ex_ops : list top :=
  [TAdd 0 (ex_ps 7) 0 3 [42%N]; TAdd 0 (ex_ps 9) 0 4 [43%N]; TSetDefault 5 [44%N];
   TApply 1 100 (ex_phv 9); TApply 2 100 (ex_phv 8); TSetImmutable; TDel 1; TResetDefault;
   TApply 3 100 (ex_phv 8); TApply 3 100 (ex_phv 7)].
Example C10_nonvacuous :
  layout_ok KExact ex_fs /\ lpm_aligned ex_fs /\ tops_ok ex_cfg ex_fs 0 ex_ops /\
  match t_run KExact ex_cfg (kb_build ex_fs) (t_new KExact ex_cfg 4 false) ex_ops with
  | Some (_, outs) => outs =
      [THandle 0; THandle 1; TCode (TCUnit MSuccess);
       TApplied (Some 1%N) (Some 4) [43%N] (Some 14); TApplied None (Some 5) [44%N] (Some 99);
       TDone; TCode TCImmutable; TCode (TCUnit MSuccess);
       TApplied None None [] (Some 99); TApplied (Some 0%N) (Some 3) [42%N] (Some 13)]
  | None => False
  end.
Proof.
  destruct ex_layout as [HL HA]. split; [exact HL|]. split; [exact HA|]. split.
  - cbn. unfold param_typed, phv_ok, bytes_ok, ex_fs; cbn.
    repeat split; repeat constructor; cbn; try lia; try discriminate.
  - vm_compute. reflexivity.
Qed.
