(** C37: actions and pipelines. *)
From Coq Require Import List Arith ZArith Lia Bool.
From Verif Require Import Base PhvModel ExprModel ExprSpec ExprProps ActionModel ActionSpec ActionProofs ActionProofs2 ActionProofs3.
Import ListNotations.

(** Every action whose calls fit the primitives is accepted: no assertion fails when it is built, whatever actions were built before *)
Theorem C37_accepted : forall n0 prog, Forall call_ok prog -> 1 <= n0 -> exists fn n1, add_prims empty_afn n0 prog = Some (fn, n1) /\ n0 <= n1.
Proof. intros n0 prog F H. destruct (add_prims_ok prog _ _ [] F (ginv_empty n0 H)) as (a & n & E & L & _). eauto. Qed.
(** An action call executes the primitives of the JSON program in order, each with the values its own parameters have at that moment, following the jumps.
    [t]: the temporaries of the thread, of which there are at least four.  With left-to-right evaluation of arguments only for actions with at most three expressions. *)
Theorem C37_actions : forall W ltr old ad n0 prog fn n1 t w o, Forall call_ok prog -> 1 <= n0 -> add_prims empty_afn n0 prog = Some (fn, n1) ->
  4 <= length (dt t) -> ltr = false \/ expr_params prog <= 3 ->
  (performs W ad prog 0 w o <-> exists k, outcome (exec_fn W ltr old ad fn k 0 t w) = Some o).
Proof.
  intros W ltr old ad n0 prog fn n1 t w o Ok H E T R. pose proof (built_ginv _ _ _ _ Ok H E) as G.
  assert (Ro : roomy ltr fn t) by (split; [exact T|rewrite (g_count _ _ _ G); exact R]). split.
  - intros P. exact (exec_complete W ltr old ad fn n1 prog G Ok 0 w o P t Ro).
  - intros [k K]. exact (exec_sound W ltr old ad fn n1 prog G Ok k 0 t w o Ro K).
Qed.
(** ... and there is one result only *)
Theorem C37_one_result : forall W ad prog i w o o', performs W ad prog i w o -> performs W ad prog i w o' -> o = o'.
Proof. intros. eapply performs_fun; eauto. Qed.
(** If all jumps are to a constant later position the action ends, after at most as many primitives as it has *)
Theorem C37_forward_jumps_end : forall W ltr old ad n0 prog fn n1 t w, Forall call_ok prog -> 1 <= n0 -> add_prims empty_afn n0 prog = Some (fn, n1) ->
  4 <= length (dt t) -> ltr = false \/ expr_params prog <= 3 ->
  (forall i ps, nth_error prog i = Some (PJump, ps) -> exists z, ps = [JS (SC z)] /\ (Z.of_nat i < p_int W z)%Z) ->
  (forall i ps, nth_error prog i = Some (PJumpIfZero, ps) -> exists c z, ps = [c; JS (SC z)] /\ (Z.of_nat i < p_int W z)%Z) ->
  exec_fn W ltr old ad fn (length prog) 0 t w <> OutOfFuel.
Proof.
  intros W ltr old ad n0 prog fn n1 t w Ok H E T R F1 F2. pose proof (built_ginv _ _ _ _ Ok H E) as G.
  apply (exec_forward W ltr old ad fn n1 prog G Ok F1 F2); [|lia]. split; [exact T|rewrite (g_count _ _ _ G); exact R].
Qed.
(** Conditionals, nested at will, lowered to jumps, run as what they are *)
Theorem C37_conditionals : forall W ltr old ad n0 l fn n1 t w w', (forall z, (- 2 ^ 31 <= z < 2 ^ 31)%Z -> p_int W z = z) ->
  Forall call_ok (lowers 0 l) -> (Z.of_nat (sizes l) < 2 ^ 31)%Z -> 1 <= n0 -> add_prims empty_afn n0 (lowers 0 l) = Some (fn, n1) ->
  4 <= length (dt t) -> ltr = false \/ expr_params (lowers 0 l) <= 3 -> does W ad l w w' ->
  exists k t', exec_fn W ltr old ad fn k 0 t w = Done (w', t').
Proof.
  intros W ltr old ad n0 l fn n1 t w w' Int Ok Sz H E T R D.
  assert (P : performs W ad (lowers 0 l) 0 w (Some w')).
  { pose proof (does_performs W ad Int l w w' D [] [] (Some w')) as X. cbn [app length] in X. rewrite app_nil_r, lowers_length in X. apply X; [exact Sz|]. apply p_end. rewrite lowers_length. cbn. lia. }
  apply (C37_actions W ltr old ad n0 _ fn n1 t w _ Ok H E T R) in P. destruct P as [k K].
  destruct (exec_fn W ltr old ad fn k 0 t w) as [[w1 t1]| |] eqn:X; cbn in K; try discriminate. injection K as ->. eauto.
Qed.

(** ** Pipelines *)
(** Applying a pipeline visits the nodes of the graph in order, from the initial node, until a node has no successor or the packet is marked for exit *)
Theorem C37_pipeline : forall W ltr old sg g t c w l w', Forall2 (loaded W ltr) sg g -> 4 <= length (dt t) ->
  (walks W sg c w l w' <-> exists k t', apply W ltr old g k t c w = Done (w', t', l)).
Proof.
  intros W ltr old sg g t c w l w' L T. split.
  - intros Wk. destruct (apply_complete W ltr old sg g L c w l w' Wk t T) as [k0 K]. destruct (K k0 (le_n _)) as [t' A]. eauto.
  - intros (k & t' & A). eapply apply_sound; eauto.
Qed.
Theorem C37_one_path : forall W sg c w l w' l2 w2, walks W sg c w l w' -> walks W sg c w l2 w2 -> l = l2 /\ w' = w2.
Proof. intros. eapply walks_fun; eauto. Qed.
(** Without cycles ([rank] decreases along every possible step) each packet leaves the pipeline *)
Theorem C37_acyclic_ends : forall W (sg : list (snode W)) (rank : nat -> nat),
  (forall n nd w w' m, nth_error sg n = Some nd -> visit W nd w w' (Some m) -> rank m < rank n /\ m < length sg) ->
  (forall n nd w, nth_error sg n = Some nd -> exists w' nx, visit W nd w w' nx) ->
  forall n w, n < length sg -> exists l w', walks W sg (Some n) w l w' /\ length l <= S (rank n).
Proof.
  intros W sg rank Dec Tot n w. remember (rank n) as r eqn:Er. revert n w Er. induction r as [r IH] using lt_wf_ind. intros n w -> Hn.
  destruct (w_exit W w) eqn:X; [exists [], w; split; [apply w_exited; exact X|cbn; lia]|].
  destruct (nth_error sg n) as [nd|] eqn:N; [|apply nth_error_None in N; lia]. destruct (Tot _ _ w N) as (w' & nx & V). destruct nx as [m|].
  - destruct (Dec _ _ _ _ _ N V) as [R M]. destruct (IH _ R m w' eq_refl M) as (l & w'' & Wk & Ll). exists (n :: l), w''. split; [econstructor; eauto|cbn; lia].
  - exists [n], w'. split; [econstructor; eauto; constructor|cbn; lia].
Qed.
(** A node that marks the packet for exit is the last *)
Theorem C37_exit_is_last : forall W sg n nd w w' nx l w'', nth_error sg n = Some nd -> w_exit W w = false -> visit W nd w w' nx -> w_exit W w' = true ->
  walks W sg (Some n) w l w'' -> l = [n] /\ w'' = w'.
Proof.
  intros W sg n nd w w' nx l w'' N X V X' Wk. eapply walks_fun; [exact Wk|]. econstructor; eauto. destruct nx; [apply w_exited; exact X'|constructor].
Qed.

(** ** Concrete cases *)
(** The world is a number; primitive 0 adds the product of its arguments; primitive 1 adds the first element of a vector times its argument; 2 marks for exit (adds 1000) *)
Definition ex_empty_env (ad : list Z) (z : Z) : env :=
  mk_env (fun h f => if Nat.eqb h 0 && Nat.eqb f 0 then Some z else None) (fun _ => None) (fun i => nth_error ad i) (fun a i => if (i <? 4)%Z then Some (i + 10)%Z else None)
    (fun _ => Some true) (fun _ _ => None) (fun _ => None) (fun _ _ => None) (fun _ _ => None) (fun _ _ => None) (fun _ _ => None) (fun _ => None).
Definition ex_sem (id : nat) (l : list seen) (w : Z) : option Z :=
  match id, l with
  | 0, [SeeVal a; SeeVal b] => Some (w + a * b)%Z
  | 1, [SeeVec (SeeVal a :: _); SeeVal b] => Some (w + a * b)%Z
  | 2, [] => Some (w + 1000)%Z
  | _, _ => None
  end.
Definition ex_W : world := mk_world Z ex_sem ex_empty_env (fun z => z) (fun w => (1000 <=? w)%Z).
Definition ex_t : dtemps := mk_dt 0 4 [0; 0; 0; 0]%Z.
Definition ex_plus (i k : Z) : jexp := JOp (OBin BAdd) (JLocal (Z.to_nat i)) (JHex k).
(** if (field) { w += (d0 + 1) * (d1 + 2) } else { w += 3 * (d1 + 5) }; w += 2 * 7 *)
Definition ex_l : list stmt :=
  [If (SF 0 0) [Call 0 [MConst; MConst] [JS (SX (ex_plus 0 1)); JS (SX (ex_plus 1 2))]] [Call 0 [MConst; MConst] [JS (SC 3); JS (SX (ex_plus 1 5))]]; Call 0 [MConst; MConst] [JS (SC 2); JS (SC 7)]].
Example ex_shape : map fst (lowers 0 ex_l) = [PJumpIfZero; POther 0 [MConst; MConst]; PJump; POther 0 [MConst; MConst]; POther 0 [MConst; MConst]].
Proof. reflexivity. Qed.
Lemma ex_plus_ok i k : data_expr (ex_plus i k).
Proof. split; [|cbn; auto]. eapply t_bin; [reflexivity|constructor|constructor]. Qed.
Lemma ex_ok : Forall call_ok (lowers 0 ex_l).
Proof.
  cbn. repeat constructor; cbn [fst snd sig]; try (intros Q; discriminate); try exact I; try apply ex_plus_ok; repeat constructor; cbn [fst snd]; try exact I; try apply ex_plus_ok.
Qed.
Example ex_runs : exists fn n1, add_prims empty_afn 1 (lowers 0 ex_l) = Some (fn, n1) /\
  (exists t', exec_fn ex_W false [] [10; 20]%Z fn 9 0 ex_t 5%Z = Done ((5 + 11 * 22 + 14)%Z, t')) /\ exists t', exec_fn ex_W true [] [10; 20]%Z fn 9 0 ex_t 0%Z = Done ((0 + 3 * 25 + 14)%Z, t').
Proof.
  destruct (C37_accepted 1 _ ex_ok (le_n _)) as (fn & n1 & E & _). exists fn, n1. split; [exact E|]. vm_compute in E. injection E as <- <-. split; eexists; vm_compute; reflexivity.
Qed.
Example ex_does : does ex_W [10; 20]%Z ex_l 5%Z (5 + 11 * 22 + 14)%Z.
Proof.
  eapply d_if with (w' := (5 + 11 * 22)%Z); [reflexivity|reflexivity|lia|cbn; eapply d_call; [reflexivity|reflexivity|constructor]|eapply d_call; [reflexivity|reflexivity|constructor]].
Qed.
(** A pipeline: a conditional, an action, an action that marks for exit, and one that is never reached *)
Definition ex_sg : list (snode ex_W) :=
  [SCond (JOp (OCmp CGt) (JField 0 0) (JHex 3)) (Some 1) (Some 2); SAction (lowers 0 [Call 0 [MConst; MConst] [JS (SC 2); JS (SC 3)]]) (Some 2); SAction [(POther 2 [], [])] (Some 3); SAction [] None].
Example ex_pipeline : walks ex_W ex_sg (Some 0) 5%Z [0; 1; 2] 1011%Z /\ walks ex_W ex_sg (Some 0) 2%Z [0; 2] 1002%Z.
Proof.
  split.
  - eapply w_node; [reflexivity|reflexivity|apply v_true; reflexivity|]. eapply w_node; [reflexivity|reflexivity|apply v_action; eapply p_call; [reflexivity|reflexivity|reflexivity|apply p_end; cbn; lia]|].
    eapply w_node; [reflexivity|reflexivity|apply v_action; eapply p_call; [reflexivity|reflexivity|reflexivity|apply p_end; cbn; lia]|]. apply w_exited. reflexivity.
  - eapply w_node; [reflexivity|reflexivity|apply v_false; reflexivity|].
    eapply w_node; [reflexivity|reflexivity|apply v_action; eapply p_call; [reflexivity|reflexivity|reflexivity|apply p_end; cbn; lia]|]. apply w_exited. reflexivity.
Qed.
Example ex_loaded : exists g, Forall2 (loaded ex_W true) ex_sg g.
Proof.
  eexists. repeat constructor.
  - eapply t_bin; [reflexivity|constructor|constructor].
  - econstructor; [|apply le_n|right; cbn; lia|vm_compute; reflexivity]. repeat constructor; try (intros Q; discriminate).
  - econstructor; [|apply le_n|right; cbn; lia|vm_compute; reflexivity]. repeat constructor. 
  - econstructor; [|apply le_n|right; cbn; lia|vm_compute; reflexivity]. constructor.
Qed.

(** ** What does not hold *)
(** A compiler that evaluates arguments from left to right: with a fourth expression the vector of temporaries is reallocated between the evaluation of two arguments,
    and the primitive reads freed memory *)
Definition ex_four : list (prim * list jparam) :=
  [(POther 0 [MConst; MConst], [JS (SX (ex_plus 0 1)); JS (SX (ex_plus 1 2))]); (POther 0 [MConst; MConst], [JS (SX (ex_plus 0 1)); JS (SX (ex_plus 1 2))])].
Theorem C37_argument_order_refuted : exists prog fn n1 w w', Forall call_ok prog /\ add_prims empty_afn 1 prog = Some (fn, n1) /\
  performs ex_W [10; 20]%Z prog 0 w (Some w') /\ exec_fn ex_W true [] [10; 20]%Z fn 9 0 ex_t w = Wrong.
Proof.
  exists ex_four. eexists. eexists. exists 0%Z, 484%Z. split; [|split; [vm_compute; reflexivity|split]].
  - repeat constructor; cbn [fst snd sig]; try (intros Q; discriminate); try exact I; try apply ex_plus_ok; repeat constructor; cbn [fst snd].
  - eapply p_call; [reflexivity|reflexivity|reflexivity|]. eapply p_call; [reflexivity|reflexivity|reflexivity|]. apply p_end. cbn. lia.
  - vm_compute. reflexivity.
Qed.
(** The expressions inside a vector are numbered apart, from 1, but use the same temporaries: an expression passed by value in the same call is overwritten *)
Definition ex_mixed : list (prim * list jparam) := [(POther 1 [MVec; MConst], [JV [SX (ex_plus 0 1)]; JS (SX (ex_plus 1 2))])].
Theorem C37_vector_overwrites_argument_refuted : exists prog fn n1 w w' w'' t', Forall (fun c => Forall2 param_ok (sig (fst c)) (snd c)) prog /\ add_prims empty_afn 1 prog = Some (fn, n1) /\
  performs ex_W [10; 20]%Z prog 0 w (Some w') /\ exec_fn ex_W false [] [10; 20]%Z fn 9 0 ex_t w = Done (w'', t') /\ w' <> w''.
Proof.
  exists ex_mixed. eexists. eexists. exists 0%Z, 242%Z. eexists. eexists. split; [|split; [vm_compute; reflexivity|split; [|split; [vm_compute; reflexivity|]]]].
  - repeat constructor; cbn; try apply ex_plus_ok.
  - eapply p_call; [reflexivity|reflexivity|reflexivity|]. apply p_end. cbn. lia.
  - vm_compute. discriminate.
Qed.
(** Nothing ensures that an action, or a pipeline with a cycle, ends *)
Theorem C37_loop_refuted : exists prog fn n1, Forall call_ok prog /\ add_prims empty_afn 1 prog = Some (fn, n1) /\
  (forall w o, ~ performs ex_W [] prog 0 w o) /\ forall k w, exec_fn ex_W false [] [] fn k 0 ex_t w = OutOfFuel.
Proof.
  exists [(PJump, [JS (SC 0)])]. eexists. eexists.
  assert (F : Forall call_ok [(PJump, [JS (SC 0)])]) by (repeat constructor; intros Q; discriminate).
  assert (E : add_prims empty_afn 1 [(PJump, [JS (SC 0)])] = Some (mk_afn [CConst 0] [] [0%Z] [] 0 [(PJump, 0)], 1)) by reflexivity.
  assert (K : forall k w, exec_fn ex_W false [] [] (mk_afn [CConst 0] [] [0%Z] [] 0 [(PJump, 0)]) k 0 ex_t w = OutOfFuel) by (induction k as [|k IH]; intros w; [reflexivity|exact (IH w)]).
  split; [exact F|]. split; [exact E|]. split; [|exact K].
  intros w o P. apply (C37_actions ex_W false [] [] 1 _ _ _ ex_t w o F (le_n _) E) in P; [|cbn; lia|left; reflexivity]. destruct P as [k Q]. rewrite K in Q. discriminate.
Qed.
Print Assumptions C37_accepted.
Print Assumptions C37_actions.
Print Assumptions C37_one_result.
Print Assumptions C37_forward_jumps_end.
Print Assumptions C37_conditionals.
Print Assumptions C37_pipeline.
Print Assumptions C37_one_path.
Print Assumptions C37_acyclic_ends.
Print Assumptions C37_exit_is_last.
Print Assumptions C37_argument_order_refuted.
Print Assumptions C37_vector_overwrites_argument_refuted.
Print Assumptions C37_loop_refuted.
