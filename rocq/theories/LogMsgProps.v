(** C62: log_msg. *)
From Coq Require Import List Arith Ascii String Bool Lia.
From Verif Require Import LogMsgModel LogMsgSpec LogMsgProofs.
Import ListNotations.
Local Open Scope string_scope.
Definition s (x : string) : list ascii := list_ascii_of_string x.

(** With a placeholder neither at the beginning nor right after another one, the message is the format string with its placeholders replaced by
    the arguments in order and its backslashes before braces removed; when the numbers differ the switch exits. *)
Theorem C62_log_msg : forall ps args, Forall well_formed ps -> Forall (Forall ordinary) args -> spaced true ps = true ->
  log_msg (format ps) args = if Nat.eqb (holes ps) (List.length args) then Logs (message ps args) else Exits.
Proof. exact log_msg_ok. Qed.
Print Assumptions C62_log_msg.

(** A placeholder that is not closed makes the switch exit. *)
Theorem C62_unfinished : forall ps inside args, Forall well_formed ps -> Forall flat inside -> Forall (Forall ordinary) args -> spaced true (ps ++ [Hole []]) = true ->
  log_msg (format ps ++ "{"%char :: format inside) args = Exits.
Proof.
  intros ps l args W F C S. assert (X : spaced true ps = true /\ lasthole true ps = false).
  { clear - S. revert S. generalize true at 1 3 5. induction ps as [|p ps IH]; intros b S; cbn in *; [destruct b; auto; discriminate|]. destruct p; try (apply IH; auto). apply andb_true_iff in S as [S1 S2]. rewrite S1. apply IH. auto. }
  replace (format l) with (List.concat (map text1 l)); [apply scan_unfinished; tauto|]. unfold format. f_equal. apply map_ext_in. intros p IN. rewrite Forall_forall in F. specialize (F p IN). destruct p; auto. contradiction.
Qed.
Print Assumptions C62_unfinished.

(** It ends for every format string and every argument list. *)
Theorem C62_terminates : forall fmt args, log_msg fmt args <> Diverges.
Proof. exact log_msg_ends. Qed.
Print Assumptions C62_terminates.

(** A placeholder at the beginning of the format string is not seen, and the switch exits: "{}" with one argument. *)
Theorem C62_first_refuted : ~ (forall ps args, Forall well_formed ps -> Forall (Forall ordinary) args -> spaced false ps = true -> holes ps = List.length args -> log_msg (format ps) args = Logs (message ps args)).
Proof.
  intros H. specialize (H [Hole []] [s "7"]). assert (O : Forall (Forall ordinary) [s "7"]) by (repeat constructor; discriminate). specialize (H ltac:(repeat constructor) O eq_refl eq_refl). vm_compute in H. discriminate.
Qed.
Print Assumptions C62_first_refuted.
(** A placeholder right after another one is not seen, and the switch exits: "a{}{}" with two arguments. *)
Theorem C62_adjacent_refuted : ~ (forall ps args, Forall well_formed ps -> Forall (Forall ordinary) args -> hd_error ps <> None -> (forall l, hd_error ps <> Some (Hole l)) -> holes ps = List.length args -> log_msg (format ps) args = Logs (message ps args)).
Proof.
  intros H. specialize (H [Plain "a"%char; Hole []; Hole []] [s "7"; s "8"]). assert (O : Forall (Forall ordinary) [s "7"; s "8"]) by (repeat constructor; discriminate).
  specialize (H ltac:(repeat constructor; discriminate) O ltac:(discriminate) ltac:(discriminate) eq_refl). vm_compute in H. discriminate.
Qed.
Print Assumptions C62_adjacent_refuted.

Example C62_ex_values : format [Plain "x"%char; Plain "="%char; Hole []; Plain ","%char; Brace true; Hole [Plain "y"%char]; Brace false; Lone; Slash "n"%char] = s "x={},\{{y}\}}\n" /\
  message [Plain "x"%char; Plain "="%char; Hole []; Plain ","%char; Brace true; Hole [Plain "y"%char]; Brace false; Lone; Slash "n"%char] [s "10"; s "-3"] = s "x=10,{-3}}\n" /\
  log_msg (s "x={},\{{y}\}}\n") [s "10"; s "-3"] = Logs (s "x=10,{-3}}\n") /\ log_msg (s "x={}") [] = Exits /\ log_msg (s "x={") [] = Exits.
Proof. vm_compute. repeat split. Qed.
Example C62_ex_hyps : spaced true [Plain "x"%char; Plain "="%char; Hole []; Plain ","%char; Brace true; Hole [Plain "y"%char]; Brace false; Lone; Slash "n"%char] = true /\
  Forall well_formed [Plain "x"%char; Plain "="%char; Hole []; Plain ","%char; Brace true; Hole [Plain "y"%char]; Brace false; Lone; Slash "n"%char] /\ Forall (Forall ordinary) [s "10"; s "-3"].
Proof. split; [reflexivity|]. split; repeat constructor; discriminate. Qed.
