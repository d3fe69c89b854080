(** C74: the parameters of an action come back from the switch, and from a saved state, as the client wrote them. *)
From Coq Require Import List Arith NArith ZArith Bool Lia.
From Verif Require Import Base Bits EntryListSpec Bytes DataModel PhvModel PiAdModel PiAdSpec PiAdProofs.
Import ListNotations.
Close Scope Z_scope.

(** Each parameter is the number its own bytes stand for, whatever the widths of the others and whatever follows. *)
Theorem C74_numbers : forall ws ps rest, Forall2 fits ws ps -> build ws (concat ps ++ rest) = Some (map num ps).
Proof. exact build_ok. Qed.

(** Reading the parameters back gives the client's bytes, with the leading zeros the switch does not store. *)
Theorem C74_bytes_back : forall ws ps ds, Forall2 fits ws ps -> build ws (concat ps) = Some ds -> dump ws ds = Some (concat ps).
Proof.
  intros ws ps ds H B. rewrite <- (app_nil_r (concat ps)), build_ok in B by auto. inversion B; subst. unfold dump.
  assert (E : length ws = length (map num ps)) by (rewrite map_length; clear B; induction H; cbn; congruence).
  apply Nat.eqb_eq in E. rewrite E. apply dump_params_ok. auto.
Qed.

(** Entries that are saved one after the other are restored exactly, and the text that follows is left for the next reader. *)
Theorem C74_saved : forall known es, Forall (savable known) es -> exists txt, save_all es = Some txt /\
  forall rest, exists rem, load_all known (length es) (txt ++ rest) = Some (es, rem) /\ same_rest rem rest.
Proof.
  intros known es H. destruct (save_all_ok _ _ H) as (t & E & R). exists t. split; auto. intros rest.
  destruct (R [] rest) as (s & B & L); [constructor|]. cbn [app] in L. exists (s ++ rest). split; auto. exists s. auto.
Qed.

Lemma num_nonneg p : (0 <= num p)%Z.
Proof. rewrite num_be. unfold import_bytes. lia. Qed.
Lemma entry_of_ok known a : pi_ok known a -> entry_of a = Some (mk_ae (Some (pa_id a)) (map num (pa_ps a))).
Proof. intros (H & _). unfold entry_of, blob_of. rewrite <- (app_nil_r (concat _)), build_ok by auto. reflexivity. Qed.
Lemma entries_ok known l : Forall (pi_ok known) l -> forall es, map entry_of l = map Some es ->
  Forall (savable known) es /\ map (fun x => dump (pa_ws (fst x)) (ae_data (snd x))) (combine l es) = map (fun a => Some (blob_of a)) l.
Proof.
  induction 1 as [|a l Ha _ IH]; intros [|e es] E; try discriminate. { split; constructor. }
  cbn [map] in E. rewrite (entry_of_ok _ _ Ha) in E. inversion E; subst. destruct (IH es H1) as [A B]. split.
  - constructor; auto. unfold savable. cbn [ae_id ae_data]. destruct Ha as (F & I & K & L). repeat split; auto.
    + rewrite map_length. replace (length (pa_ps a)) with (length (pa_ws a)); auto. clear - F. induction F; cbn; congruence.
    + apply Forall_map. apply Forall_forall. intros. apply num_nonneg.
  - cbn [combine map fst snd ae_data]. f_equal; auto. apply C74_bytes_back; [apply Ha|]. destruct Ha as (F & _).
    rewrite <- (app_nil_r (concat _)), build_ok by auto. reflexivity.
Qed.
(** Actions written by the client, saved, restored into a fresh switch and read back: the same bytes. *)
Theorem C74_survives : forall known l, Forall (pi_ok known) l -> exists es txt, map entry_of l = map Some es /\ save_all es = Some txt /\
  forall rest, exists es' rem, load_all known (length l) (txt ++ rest) = Some (es', rem) /\ same_rest rem rest /\
    map ae_id es' = map (fun a => Some (pa_id a)) l /\
    map (fun x => dump (pa_ws (fst x)) (ae_data (snd x))) (combine l es') = map (fun a => Some (blob_of a)) l.
Proof.
  intros known l H. set (es := map (fun a => mk_ae (Some (pa_id a)) (map num (pa_ps a))) l).
  assert (E : map entry_of l = map Some es).
  { unfold es. rewrite map_map. apply map_ext_in. intros a Ha. rewrite Forall_forall in H. apply (entry_of_ok known). auto. }
  destruct (entries_ok _ _ H _ E) as [S D]. destruct (C74_saved _ _ S) as (t & Et & R). exists es, t. split; auto. split; auto.
  intros rest. destruct (R rest) as (rem & L & Q). unfold es at 1 in L. rewrite map_length in L. exists es, rem. split; auto. split; auto. split; auto.
  unfold es. rewrite map_map. reflexivity.
Qed.

(** An action with a parameter of width 0 can be written but not read back: the switch fails an assertion. *)
Theorem C74_zero_width_refuted :
  ~ (forall ws ps ds, Forall2 (fun w p => w <= 8 * length p < w + 8 /\ bytes_ok p) ws ps -> build ws (concat ps) = Some ds -> dump ws ds <> None).
Proof.
  intros H. apply (H [0] [[]] [0%Z]); [|reflexivity|reflexivity]. constructor; [|constructor]. split; [cbn; lia|constructor].
Qed.
(** A negative parameter, which the default entry of a program can have, is read back without its sign. *)
Theorem C74_negative_refuted :
  ~ (forall (w : nat) (d : Z) p, (- 2 ^ (Z.of_nat w - 1) <= d < 2 ^ (Z.of_nat w - 1))%Z -> dump [w] [d] = Some p -> (num p mod 2 ^ Z.of_nat w = d mod 2 ^ Z.of_nat w)%Z).
Proof. intros H. specialize (H 8 (-1)%Z [1%N]). vm_compute in H. assert (1 = 255)%Z; [|discriminate]. apply H; [|reflexivity]. split; [discriminate|reflexivity]. Qed.
(** ... and makes saving the state fail. *)
Theorem C74_negative_save_refuted : ~ (forall e, save_entry e <> None).
Proof. intros H. apply (H (mk_ae (Some 1%N) [(-1)%Z])). reflexivity. Qed.
(** Exactly: an entry is saved if and only if it has no action or no negative parameter. *)
Theorem C74_savable : forall e, save_entry e <> None <-> (ae_id e <> None -> Forall (fun d => 0 <= d)%Z (ae_data e)).
Proof.
  intros [[id|] ds]; unfold save_entry; cbn [ae_id ae_data].
  - assert (G : show_data ds <> None <-> Forall (fun d => 0 <= d)%Z ds).
    { induction ds as [|d ds IH]; cbn [show_data]. { split; [constructor|discriminate]. }
      unfold show_hex at 1. destruct (Z.ltb_spec d 0); cbn [bind].
      - split; [congruence|]. intros F. inversion F; subst. lia.
      - destruct (show_data ds); cbn [bind].
        + split; [|discriminate]. intros _. constructor; auto. apply IH. discriminate.
        + split; [congruence|]. intros F. inversion F; subst. apply IH in H3. congruence. }
    destruct (show_data ds); cbn [bind]; split; intros; try discriminate; try (apply G; discriminate); try congruence.
    destruct (proj2 G); auto. apply H. discriminate.
  - split; [congruence|discriminate].
Qed.

(** ** An instance: an address of 9 bits, a value of 48 bits with leading zeros, a flag *)
Definition act1 : pi_action := mk_pa 7 [9; 48; 1] [[1; 255]; [0; 0; 10; 11; 12; 13]; [0]]%N.
Definition act2 : pi_action := mk_pa 3 [] [].
Definition act3 : pi_action := mk_pa 12 [16] [[0; 0]]%N.
Definition knows (i : N) : bool := (i <? 100)%N.
Example C74_acts : Forall (pi_ok knows) [act1; act2; act3].
Proof. repeat constructor; cbn; lia. Qed.
Example C74_text : save_all [mk_ae (Some 7%N) [511; 168496141; 0]%Z; mk_ae None []] =
  Some ([55; 10; 51; 10; 49; 102; 102; 10; 97; 48; 98; 48; 99; 48; 100; 10; 48; 10; 45; 49; 10]%N).
Proof. reflexivity. Qed.

Print Assumptions C74_numbers.
Print Assumptions C74_bytes_back.
Print Assumptions C74_saved.
Print Assumptions C74_survives.
Print Assumptions C74_zero_width_refuted.
Print Assumptions C74_negative_refuted.
Print Assumptions C74_negative_save_refuted.
Print Assumptions C74_savable.
