(** C45: saving the state of a switch and restoring it in a freshly configured one. *)
From Coq Require Import List Arith NArith ZArith Bool Lia Sorted.
From Verif Require Import Base Bits Bytes EntryListModel MatchUnitModel MatchUnitSpec MatchUnitProofs MatchUnitConseq
  KeyBuilderModel KeyBuilderSpec KeyBuilderProps ProfileModel ProfileSpec ProfileProofs3 ProfileProofs4 ProfileProps
  SerialModel SerialSpec SerialProofs SerialProofs2 SerialProofs3 SerialProofs4 TableModel TableSpec TableProofs TableProps.
Import ListNotations.

(** Entry stores of exact and LPM tables.  [w_val] and [rd_val] write and read the values.  After
    any history: saving works; restoring into a new store consumes exactly the words written, and
    gives the same entries under the same handles, with the same timeouts ([restored]); from there
    any later history without new entries, or any later history at all if slot 0 was free, follows
    the specification of entry stores. *)
Theorem C45_unit : forall (V : Type) (w_val : V -> list tok) rd_val kd nb size cache cache' ops,
  (forall v r, rd_val (w_val v ++ r) = Some (v, r)) ->
  kd = KExact \/ kd = KLpm -> 0 < nb -> (N.of_nat size <= 2 ^ 24)%N -> ops_ok kd nb 0 ops ->
  exists u outs t ws, mu_run kd nb (mu_new kd size cache) ops = Some (u, outs) /\
    mspec_run kd nb size tab_empty ops outs t /\ mu_save w_val kd u = Some ws /\
  forall now r, exists u1 t1,
    mu_restore rd_val kd now (mu_new kd size cache') (ws ++ r) = Some (u1, r) /\
    restored kd now t t1 /\
    forall m ops', (forall i, (now i <= m)%N) -> ops_ok kd nb m ops' ->
      Forall (fun o => ~ is_add o) ops' \/ slot_of t 0 = None ->
      exists u2 outs' t2, mu_run kd nb u1 ops' = Some (u2, outs') /\ mspec_run kd nb size t1 ops' outs' t2.
Proof.
  intros V w_val rd_val kd nb size cache cache' ops RT K Nb HS Ho.
  destruct (run_ok kd nb size cache HS ops 0%N _ _ (MR_new kd nb size cache) Ho) as (u & outs & t & last & E & Sp & M).
  destruct (unit_ok w_val rd_val kd nb size cache cache' (fun _ => 0%N) HS K Nb last u t M) as (ws & _ & Ws & _).
  { intros i e r _. apply RT. }
  exists u, outs, t, ws. split; [exact E|]. split; [exact Sp|]. split; [exact Ws|]. intros now r.
  destruct (unit_ok w_val rd_val kd nb size cache cache' now HS K Nb last u t M) as (ws' & hs & Ws' & En & Rs).
  { intros i e r' _. apply RT. }
  rewrite Ws in Ws'. injection Ws' as <-. destruct (Rs r) as (u1 & v & t1 & E1 & U & M1 & Rst & _ & Z).
  exists u1, t1. split; [exact E1|]. split; [exact Rst|]. intros m ops' Nm Ho' G.
  assert (Ho2 : ops_ok kd nb (last_of now hs) ops') by (eapply ops_ok_mono; [|exact Ho']; apply last_of_le; auto).
  destruct (run_ok kd nb size cache' HS ops' _ _ _ M1 Ho2) as (v2 & outs' & t2 & l2 & E2 & Sp2 & _).
  destruct G as [G|G].
  - pose proof (usim_run kd nb ops' _ _ U G) as Q. rewrite E2 in Q.
    destruct (mu_run kd nb u1 ops') as [[u2 o2]|]; [|contradiction]. destruct Q as [_ ->]. eauto.
  - rewrite <- (Z G). eauto.
Qed.
Print Assumptions C45_unit.

Lemma tops_ok_mono c fs ops : forall last last', (last <= last')%N -> tops_ok c fs last' ops -> tops_ok c fs last ops.
Proof.
  induction ops as [|o r IH]; intros last last' L; cbn [tops_ok]; auto. intros [A B]. split.
  - destruct o; auto. lia.
  - eapply IH; [|exact B]. lia.
Qed.

(** The round trip of a direct table, from API calls to API calls: [ops] before the save, [ops']
    after the restore into a freshly configured table.  The client's rows keep their handles,
    parameters, actions and data and have their counters at zero; the default is the same. *)
Definition round_trip (kd : mkind) (c : tcfg) (fs : list kfield) (size : nat) (cache cache' : bool)
    (j : nat) (now : nat -> N) (ops ops' : list top) : Prop :=
  exists t outs ws, t_run kd c (kb_build fs) (t_new kd c size cache) ops = Some (t, outs) /\
    t_save kd c j t = Some ws /\
  forall r, exists t1 t2 outs', t_restore kd j now (t_new kd c size cache') (ws ++ r) = Some (t1, r) /\
    t_run kd c (kb_build fs) t1 ops' = Some (t2, outs') /\
    history_ok kd c fs size (zero_rows (rows_after no_rows ops outs)) (default_after None ops outs) false ops' outs'.

(** The guards: exact or LPM table with a key; a program's default entry without action data, and
    without a next node as soon as some action has none on a miss; no entry added after the restore,
    unless slot 0 was free. *)
Definition table_guard (kd : mkind) (c : tcfg) (fs : list kfield) : Prop :=
  (kd = KExact \/ kd = KLpm) /\ 0 < key_bytes fs /\ a_data (c_default c) = [] /\
  (forall fn, node_on_miss c fn = Some None -> a_next (c_default c) = None).
Definition no_new_rows (rows : nat -> option row) (ops' : list top) : Prop :=
  Forall (fun o => ~ is_tadd o) ops' \/ rows 0 = None.

Theorem C45_table : forall kd c fs size cache cache' j now m ops ops',
  layout_ok kd fs -> lpm_aligned fs -> (N.of_nat size <= 2 ^ 24)%N -> table_guard kd c fs ->
  tops_ok c fs 0 ops -> (forall i, (now i <= m)%N) -> tops_ok c fs m ops' ->
  (forall t outs, t_run kd c (kb_build fs) (t_new kd c size cache) ops = Some (t, outs) ->
     no_new_rows (rows_after no_rows ops outs) ops') ->
  round_trip kd c fs size cache cache' j now ops ops'.
Proof.
  intros kd c fs size cache cache' j now m ops ops' HL HA HS (K & Nb & G1 & G2) Ho Nm Ho' G.
  destruct (TI_run2 kd c fs size cache HL HA HS ops 0%N _ _ _ _ _ (TI_new kd c fs size cache) Ho)
    as (t & outs & last & s & E & T).
  exists t, outs. specialize (G _ _ E).
  destruct (TI_restore kd c fs size cache cache' HL HS K Nb _ _ _ _ _ _ now j T G1 G2) as (ws & last' & Ws & Ll & Rs).
  exists ws. split; [exact E|]. split; [exact Ws|]. intros r.
  destruct (Rs r) as (t1 & t2 & s' & E1 & Si & T1 & Z). exists t1.
  assert (Ho2 : tops_ok c fs last' ops') by (eapply tops_ok_mono; [|exact Ho']; apply Ll; auto).
  destruct (TI_run kd c fs size cache' HL HA HS ops' _ _ _ _ _ _ T1 Ho2) as (t3 & outs' & E2 & H).
  destruct G as [G|G].
  - pose proof (tsim_run kd c (kb_build fs) ops' _ _ Si G) as Q. rewrite E2 in Q.
    destruct (t_run kd c (kb_build fs) t1 ops') as [[t4 o2]|]; [|contradiction]. destruct Q as [_ ->]. eauto.
  - pose proof (Z G). subst t2. eauto.
Qed.
Print Assumptions C45_table.

(** A switch with any number of indirect tables sharing an action profile.  After any history
    without a reference-count defect (C11), with every live group number below which there is no
    free one: the save succeeds, a freshly configured switch of the same program accepts it, has the
    same members, groups, defaults and entries, and any later calls that create nothing follow the
    specification from there. *)
Theorem C45_switch : forall np cs md5 now ops, cfg_ok cs ->
  Forall (fun c => (ic_kd c = KExact \/ ic_kd c = KLpm) /\ 0 < ic_nb c) cs -> Forall (pop_ok cs) ops ->
  exists r w outs, w_run np cs (w_new cs) ops = (w, outs) /\ pspec_run np cs (wst0 (length cs)) ops outs r /\
  forall s, r = Some s -> (forall g k, g_of s g <> None -> k < g -> g_of s k <> None) ->
  exists ws w1 s1, w_save cs md5 w = Some ws /\ w_restore cs md5 now (w_new cs) ws = Some (w1, 0) /\
    wst_restored cs now s s1 /\
    forall ops', Forall (pop_ok cs) ops' -> Forall (fun o => ~ is_padd o) ops' ->
      exists r', pspec_run np cs s1 ops' (snd (w_run np cs w1 ops')) r'.
Proof.
  intros np cs md5 now ops CO SC F.
  destruct (run_sim np cs CO ops _ _ (WR_new cs) F) as (r & w & outs & E & Sp & W).
  exists r, w, outs. split; [exact E|]. split; [exact Sp|]. intros s -> Cl.
  destruct (switch_ok cs CO SC md5 now w s W Cl) as (ws & w1 & w2 & s1 & A & B & C & D & G).
  exists ws, w1, s1. split; [exact A|]. split; [exact B|]. split; [exact G|]. intros ops' F' NA.
  destruct (run_sim np cs CO ops' _ _ D F') as (r' & w' & outs' & E' & Sp' & _).
  exists r'. destruct (wsim_run np cs ops' _ _ C NA) as [Q _]. rewrite Q, E'. exact Sp'.
Qed.
Print Assumptions C45_switch.

(** A file of another program, or of another version of the format, is refused and changes
    nothing. *)
Theorem C45_wrong_program : forall cs cs' md5 md5' now w w0 ws, w_save cs md5 w = Some ws -> md5' <> md5 ->
  w_restore cs' md5' now w0 ws = Some (w0, 1).
Proof.
  intros cs cs' md5 md5' now w w0 ws H N. unfold w_save in H.
  destruct (its_save cs 0 (w_tabs w)); [|discriminate]. destruct (p_save (w_prof w)); [|discriminate].
  injection H as <-. unfold w_restore. cbn [rd_num]. rewrite Z.eqb_refl. cbn [negb].
  destruct (Z.eqb_spec md5 md5'); [congruence|reflexivity].
Qed.
Print Assumptions C45_wrong_program.
Theorem C45_wrong_version : forall cs md5 now w v l, v <> 606201600%Z ->
  w_restore cs md5 now w (WNum v :: l) = Some (w, 1).
Proof. intros cs md5 now w v l H. unfold w_restore, format_version. cbn [rd_num]. destruct (Z.eqb_spec v 606201600); [congruence|reflexivity]. Qed.
Print Assumptions C45_wrong_version.

(** ** What the guards exclude *)
Ltac chk := cbn; unfold param_typed, phv_ok, bytes_ok; cbn; repeat split; repeat constructor; cbn; try lia; try discriminate.

(** Adding an entry after a restore overwrites the entry in slot 0: the handle returned is in use. *)
Theorem C45_add_after_restore_refuted :
  ~ (forall c fs size now m ops ops', layout_ok KExact fs -> lpm_aligned fs -> (N.of_nat size <= 2 ^ 24)%N ->
       table_guard KExact c fs -> tops_ok c fs 0 ops -> (forall i, (now i <= m)%N) -> tops_ok c fs m ops' ->
       round_trip KExact c fs size false false 0 now ops ops').
Proof.
  intros H. destruct ex_layout as [HL HA].
  specialize (H ex_cfg ex_fs 4 (fun _ => 5%N) 5%N [TAdd 0 (ex_ps 7) 0 3 [42%N]] [TAdd 6 (ex_ps 9) 0 4 [43%N]] HL HA ltac:(cbn; lia)).
  destruct H as (t & outs & ws & E & S & R).
  { split; [auto|]. split; [cbn; lia|]. split; [reflexivity|]. intros fn Q. discriminate. }
  { chk. } { intros; lia. } { chk. }
  vm_compute in E. injection E as <- <-. vm_compute in S. injection S as <-.
  destruct (R []) as (t1 & t2 & outs' & E1 & E2 & H).
  vm_compute in E1. injection E1 as <-. vm_compute in E2. injection E2 as <- <-.
  cbn in H. destruct H as [[[_ Q]|[_ [[Q _]|[[Q _]|(h & Q & L & N & _)]]]] _]; try discriminate.
  injection Q as <-. vm_compute in N. discriminate.
Qed.
Print Assumptions C45_add_after_restore_refuted.

(** ... with this effect: the entry for 7 now executes the action of the entry for 9. *)
Example add_after_restore :
  match t_run KExact ex_cfg (kb_build ex_fs) (t_new KExact ex_cfg 4 false) [TAdd 0 (ex_ps 7) 0 3 [42%N]] with
  | Some (t, _) =>
      match t_save KExact ex_cfg 0 t with
      | Some ws =>
          match t_restore KExact 0 (fun _ => 5%N) (t_new KExact ex_cfg 4 false) ws with
          | Some (t1, []) => option_map snd (t_run KExact ex_cfg (kb_build ex_fs) t1
              [TApply 6 64 (ex_phv 7); TAdd 6 (ex_ps 9) 0 4 [43%N]; TApply 7 64 (ex_phv 7)])
          | _ => None
          end
      | None => None
      end
  | None => None
  end = Some [TApplied (Some 0%N) (Some 3) [42%N] (Some 13); THandle 0; TApplied (Some 0%N) (Some 4) [43%N] (Some 14)].
Proof. vm_compute. reflexivity. Qed.

(** Ternary (and range) tables do not survive: the first lookup reads a dangling key pointer ... *)
Definition kt (d m : list N) (p : Z) : mkey := mkKey d m 0 p [].
Definition w_n (n : N) : list tok := [WData n].
Definition rd_n (l : list tok) : option (N * list tok) := match l with WData n :: r => Some (n, r) | _ => None end.
Definition after_restore (kd : mkind) (nb size : nat) (ops ops' : list (mop N)) : option (list (mout N)) :=
  match mu_run kd nb (mu_new kd size true) ops with
  | Some (u, _) =>
      match mu_save w_n kd u with
      | Some ws =>
          match mu_restore rd_n kd (fun _ => 5%N) (mu_new kd size true) ws with
          | Some (u1, []) => match mu_run kd nb u1 ops' with Some (_, o) => Some o | None => None end
          | _ => None
          end
      | None => None
      end
  | None => None
  end.
Definition unit_trip (kd : mkind) (nb size : nat) (ops ops' : list (mop N)) : Prop :=
  exists u outs t ws, mu_run kd nb (mu_new kd size true) ops = Some (u, outs) /\
    mspec_run kd nb size tab_empty ops outs t /\ mu_save w_n kd u = Some ws /\
  exists u1 t1, mu_restore rd_n kd (fun _ => 5%N) (mu_new kd size true) ws = Some (u1, []) /\
    restored kd (fun _ => 5%N) t t1 /\
    exists u2 outs' t2, mu_run kd nb u1 ops' = Some (u2, outs') /\ mspec_run kd nb size t1 ops' outs' t2.

Theorem C45_ternary_refuted :
  ~ (forall ops ops', ops_ok KTernary 1 0 ops -> ops_ok KTernary 1 5 ops' -> unit_trip KTernary 1 4 ops ops').
Proof.
  intros H. specialize (H [MAdd 0 (kt [7%N] [255%N] 1) 3%N] [MLookup 6 64 [7%N]]).
  destruct H as (u & outs & t & ws & E & _ & S & u1 & t1 & R & _ & u2 & o2 & t2 & E2 & _).
  { apply ops_okb_ok. vm_compute. reflexivity. } { apply ops_okb_ok. vm_compute. reflexivity. }
  vm_compute in E. injection E as <- <-. vm_compute in S. injection S as <-. vm_compute in R. injection R as <-.
  vm_compute in E2. discriminate.
Qed.
Print Assumptions C45_ternary_refuted.

(** ... or, when slot 0 was free, finds none of the entries, although they are listed. *)
Example ternary_entries_lost :
  let ops := [MAdd 0 (kt [1%N] [255%N] 1) 3%N; MAdd 0 (kt [7%N] [255%N] 1) 4%N; MDel 0] in
  after_restore KTernary 1 4 ops [MLookup 6 64 [7%N]; MIter; MGet 1] =
    Some [MMiss; MHandles [1%N]; MValue (Some 4%N)] /\
  match mu_run KTernary 1 (mu_new KTernary 4 true) (ops ++ [MLookup 6 64 [7%N]]) with
  | Some (_, outs) => nth 3 outs MDone = MFound 1 (Some 4%N)
  | None => False
  end.
Proof. vm_compute. split; reflexivity. Qed.

(** The generation number of a free slot is not saved: a handle of an entry deleted before the save
    designates whatever is put there after the restore. *)
Theorem C45_stale_handle_refuted :
  ~ (forall k v k' v' u h x y, ops_ok KExact 1 0 [MAdd 0 k v; MDel h; MAdd 6 k' v'; MGet h] ->
       mu_run KExact 1 (mu_new KExact 4 true) [MAdd 0 k v; MDel h] = Some (u, [MHandle h; MCode MSuccess]) ->
       after_restore KExact 1 4 [MAdd 0 k v; MDel h] [MAdd 6 k' v'; MGet h] = Some [x; y] -> y = MCode MExpired).
Proof.
  intros H. pose (ops := [MAdd 0 (mkKey [7%N] [] 0 0 []) 3%N; MDel 0] : list (mop N)).
  assert (exists u, mu_run KExact 1 (mu_new KExact 4 true) ops = Some (u, [MHandle 0; MCode MSuccess])) as (u & E).
  { eexists. vm_compute. reflexivity. }
  assert (X : MValue (Some 8%N) = MCode MExpired); [|discriminate].
  refine (H _ _ (mkKey [9%N] [] 0 0 []) 8%N u 0%N (MHandle 0) (MValue (Some 8%N)) _ E _).
  - apply ops_okb_ok. vm_compute. reflexivity.
  - vm_compute. reflexivity.
Qed.
Print Assumptions C45_stale_handle_refuted.
(** Without the save and restore the handle is refused. *)
Example stale_handle_without_restore :
  match mu_run KExact 1 (mu_new KExact 4 true)
          [MAdd 0 (mkKey [7%N] [] 0 0 []) 3%N; MDel 0; MAdd 6 (mkKey [9%N] [] 0 0 []) 8%N; MGet 0] with
  | Some (_, outs) => nth 3 outs MDone = MCode MExpired
  | None => False
  end.
Proof. vm_compute. reflexivity. Qed.

(** A default entry with action data: the saved data are appended to the program's. *)
Definition data_cfg : tcfg := mkCfg (fun _ => 1) (fun fn => Some (Some (fn + 10))) None None (mkA (Some 2) [40%N] (Some 12))
  false None true true.
Theorem C45_default_data_refuted :
  ~ (forall c fs size now m ops ops', layout_ok KExact fs -> lpm_aligned fs -> (N.of_nat size <= 2 ^ 24)%N ->
       0 < key_bytes fs -> (forall fn, node_on_miss c fn = Some None -> a_next (c_default c) = None) ->
       tops_ok c fs 0 ops -> (forall i, (now i <= m)%N) -> tops_ok c fs m ops' ->
       no_new_rows no_rows ops' -> round_trip KExact c fs size false false 0 now ops ops').
Proof.
  intros H. destruct ex_layout as [HL HA].
  specialize (H data_cfg ex_fs 4 (fun _ => 5%N) 5%N [] [TGetDefault] HL HA ltac:(cbn; lia) ltac:(cbn; lia)).
  destruct H as (t & outs & ws & E & S & R).
  { intros fn Q. discriminate. } { chk. } { intros; lia. } { chk. } { right. reflexivity. }
  vm_compute in E. injection E as <- <-. vm_compute in S. injection S as <-.
  destruct (R []) as (t1 & t2 & outs' & E1 & E2 & H).
  vm_compute in E1. injection E1 as <-. vm_compute in E2. injection E2 as <- <-.
  cbn in H. destruct H as [H _]. discriminate.
Qed.
Print Assumptions C45_default_data_refuted.

(** A default without a next node: the program's next node is kept. *)
Definition next_cfg : tcfg := mkCfg (fun _ => 1) (fun fn => Some (if fn =? 3 then None else Some 99)) None None
  (mkA (Some 2) [] (Some 12)) false None true true.
Theorem C45_default_next_refuted :
  ~ (forall c fs size now m ops ops', layout_ok KExact fs -> lpm_aligned fs -> (N.of_nat size <= 2 ^ 24)%N ->
       0 < key_bytes fs -> a_data (c_default c) = [] ->
       tops_ok c fs 0 ops -> (forall i, (now i <= m)%N) -> tops_ok c fs m ops' ->
       no_new_rows no_rows ops' -> round_trip KExact c fs size false false 0 now ops ops').
Proof.
  intros H. destruct ex_layout as [HL HA].
  specialize (H next_cfg ex_fs 4 (fun _ => 5%N) 5%N [TSetDefault 3 [1%N]] [TApply 6 64 (ex_phv 7)] HL HA ltac:(cbn; lia) ltac:(cbn; lia)).
  destruct H as (t & outs & ws & E & S & R).
  { reflexivity. } { chk. } { intros; lia. } { chk. } { right. reflexivity. }
  vm_compute in E. injection E as <- <-. vm_compute in S. injection S as <-.
  destruct (R []) as (t1 & t2 & outs' & E1 & E2 & H).
  vm_compute in E1. injection E1 as <-. vm_compute in E2. injection E2 as <- <-.
  cbn in H. destruct H as [[(i & r & nn & Q & _)|[_ (nn & Q1 & Q2)]] _].
  - cbv in Q. discriminate.
  - injection Q1 as <-. discriminate.
Qed.
Print Assumptions C45_default_next_refuted.

(** A table whose entries are part of the program cannot be restored: the freshly configured table
    already has them, and the process dies. *)
Theorem C45_constant_entries_refuted :
  ~ (forall c fs size ps fn data t o ws, layout_ok KExact fs -> (N.of_nat size <= 2 ^ 24)%N -> table_guard KExact c fs ->
       t_run KExact c (kb_build fs) (t_new KExact c size false) [TAdd 0 ps 0 fn data; TSetImmutable] = Some (t, o) ->
       t_save KExact c 0 t = Some ws ->
       t_restore KExact 0 (fun _ => 5%N) t ws <> None).
Proof.
  intros H. destruct ex_layout as [HL HA].
  assert (exists t ws, t_run KExact ex_cfg (kb_build ex_fs) (t_new KExact ex_cfg 4 false) [TAdd 0 (ex_ps 7) 0 3 [42%N]; TSetImmutable] =
     Some (t, [THandle 0; TDone]) /\ t_save KExact ex_cfg 0 t = Some ws /\
     t_restore KExact 0 (fun _ => 5%N) t ws = None) as (t & ws & A & B & C).
  { do 2 eexists. split; [vm_compute; reflexivity|]. split; vm_compute; reflexivity. }
  refine (H ex_cfg ex_fs 4 (ex_ps 7) 3 [42%N] t _ ws HL _ _ A B C).
  - cbn; lia.
  - split; [auto|]. split; [cbn; lia|]. split; [reflexivity|]. intros fn Q. discriminate.
Qed.
Print Assumptions C45_constant_entries_refuted.

(** A gap in the group numbers: the process dies while restoring. *)
Definition gap_ops : list pop := [PAddGroup; PAddGroup; PDelGroup 0].
Theorem C45_group_gap_refuted :
  ~ (forall ops w outs ws, Forall (pop_ok [ex_c; ex_c]) ops -> w_run ex_np [ex_c; ex_c] (w_new [ex_c; ex_c]) ops = (w, outs) ->
       w_save [ex_c; ex_c] 1 w = Some ws -> w_restore [ex_c; ex_c] 1 (fun _ _ => 5%N) (w_new [ex_c; ex_c]) ws <> None).
Proof.
  intros H.
  assert (exists w outs ws, w_run ex_np [ex_c; ex_c] (w_new [ex_c; ex_c]) gap_ops = (w, outs) /\
     w_save [ex_c; ex_c] 1 w = Some ws /\
     w_restore [ex_c; ex_c] 1 (fun _ _ => 5%N) (w_new [ex_c; ex_c]) ws = None) as (w & outs & ws & A & B & C).
  { do 3 eexists. split; [vm_compute; reflexivity|]. split; vm_compute; reflexivity. }
  refine (H gap_ops w outs ws _ A B C). unfold gap_ops. repeat constructor.
Qed.
Print Assumptions C45_group_gap_refuted.

(** ** Non-vacuity *)
Definition sv_ops : list top :=
  [TAdd 0 (ex_ps 7) 0 3 [42%N]; TAdd 0 (ex_ps 9) 0 4 [43%N]; TSetDefault 5 [44%N]; TDel 0; TApply 1 100 (ex_phv 9)].
Definition sv_ops' : list top :=
  [TApply 6 100 (ex_phv 9); TQuery 1; TApply 6 100 (ex_phv 7); TAdd 7 (ex_ps 7) 0 3 [1%N]; TApply 8 10 (ex_phv 7); TDel 1; TCount].
Example C45_table_nonvacuous :
  layout_ok KExact ex_fs /\ lpm_aligned ex_fs /\ table_guard KExact ex_cfg ex_fs /\ tops_ok ex_cfg ex_fs 0 sv_ops /\
  tops_ok ex_cfg ex_fs 5 sv_ops' /\
  match t_run KExact ex_cfg (kb_build ex_fs) (t_new KExact ex_cfg 4 false) sv_ops with
  | Some (t, outs) => rows_after no_rows sv_ops outs 0 = None /\
      match t_save KExact ex_cfg 2 t with
      | Some ws =>
          match t_restore KExact 2 (fun _ => 5%N) (t_new KExact ex_cfg 4 false) ws with
          | Some (t1, []) => option_map snd (t_run KExact ex_cfg (kb_build ex_fs) t1 sv_ops')
          | _ => None
          end
      | None => None
      end = Some [TApplied (Some 1%N) (Some 4) [43%N] (Some 14); TCnt 100 1; TApplied None (Some 5) [44%N] (Some 99);
                  THandle 0; TApplied (Some 0%N) (Some 3) [1%N] (Some 13); TCode (TCUnit MSuccess); TNum 1]
  | None => False
  end.
Proof.
  destruct ex_layout as [HL HA]. split; [exact HL|]. split; [exact HA|]. split.
  { split; [auto|]. split; [cbn; lia|]. split; [reflexivity|]. intros fn Q. discriminate. }
  split; [chk|]. split; [chk|]. vm_compute. split; reflexivity.
Qed.

Definition sw_ops : list pop :=
  [PAddMember 3 [41%N]; PAddMember 4 [42%N]; PAddMember 5 [43%N]; PAddGroup; PJoin 2 0; PJoin 0 0; PDelMember 1;
   IAdd 0 0 (Some (ex_key 7)) (Grp 0); IAdd 1 0 (Some (ex_key 8)) (Mbr 2); ISetDefault 1 (Grp 0)].
Definition sw_ops' : list pop :=
  [IApply 0 6 64 [7%N] (Some 1%N); IApply 1 6 64 [9%N] (Some 0%N); PGetMembers; PGetGroup 0; PDelGroup 0;
   IDel 0 0; IResetDefault 1; PDelGroup 0; PDelMember 0; PNumMembers].
Example C45_switch_nonvacuous :
  Forall (pop_ok [ex_c; ex_c]) sw_ops /\ Forall (pop_ok [ex_c; ex_c]) sw_ops' /\ Forall (fun o => ~ is_padd o) sw_ops' /\
  match w_save [ex_c; ex_c] 1 (fst (w_run ex_np [ex_c; ex_c] (w_new [ex_c; ex_c]) sw_ops)) with
  | Some ws =>
      match w_restore [ex_c; ex_c] 1 (fun _ _ => 5%N) (w_new [ex_c; ex_c]) ws with
      | Some (w1, 0) => Some (snd (w_run ex_np [ex_c; ex_c] w1 sw_ops'))
      | _ => None
      end
  | None => None
  end = Some [PApplied (Some 0%N) (Some 5) [43%N] (Some 15); PApplied None (Some 3) [41%N] (Some 99);
              PMembers [(0, (3, [41%N])); (2, (5, [43%N]))]; PGroup [0; 2]; PErr PGrpUsed; POk; POk; POk; POk; PNum 1].
Proof.
  split. { unfold sw_ops. pops; try (intros k' Q; injection Q as <-; apply ex_key_ok; lia). }
  split. { unfold sw_ops'. pops; try (split; [repeat constructor; lia|auto]). }
  split. { unfold sw_ops'. repeat constructor; intros []. }
  vm_compute. reflexivity.
Qed.
