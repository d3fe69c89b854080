(** What an action means, on the JSON program; what a pipeline means, on its graph. *)
From Coq Require Import List Arith ZArith Bool.
From Verif Require Import PhvModel ExprModel ExprSpec ActionModel.
Import ListNotations.

(** ** What a parameter denotes when the primitive is called in a state where expressions see [E], in an action called with [ad] *)
Definition reg_cell (E : env) (a : nat) (i : Z) : option seen := match e_reg E a i with Some _ => Some (SeeLoc (PReg a i)) | None => None end.
Definition field_cell (E : env) (h f : nat) : option seen := match e_field E h f with Some _ => Some (SeeLoc (PField h f)) | None => None end.
(** A constant, an action parameter or the value of an expression is a value; a field or register is passed by reference *)
Definition sc_means (E : env) (ad : list Z) (p : sparam) : option seen :=
  match p with
  | SC z => Some (SeeVal z)
  | SD i => match nth_error ad i with Some z => Some (SeeVal z) | None => None end
  | SF h f => field_cell E h f
  | SX j => match value E j with Some (VD z) => Some (SeeVal z) | _ => None end
  | SRG a j => match value E j with Some (VD z) => if Z_lt_dec z 0 then None else reg_cell E a (z mod 2 ^ 64)%Z | _ => None end
  | SR a i => reg_cell E a (Z.of_nat i)
  | SSF k f => match e_last E k with Some h => field_cell E h f | None => None end
  end.
(** As the target of an assignment an expression denotes the field or register it names *)
Definition ref_means (E : env) (ad : list Z) (p : sparam) : option seen :=
  match p with
  | SX j => match value E j, refers E j with Some _, Some q => Some (SeeLoc q) | _, _ => None end
  | SC _ | SD _ => None
  | _ => sc_means E ad p
  end.
(** In a vector all is passed by value *)
Definition now (E : env) (s : seen) : option Z :=
  match s with SeeVal z => Some z | SeeLoc (PField h f) => e_field E h f | SeeLoc (PReg a i) => e_reg E a i | _ => None end.
Fixpoint vec_means (E : env) (ad : list Z) (l : list sparam) : option (list seen) :=
  match l with
  | [] => Some []
  | p :: r => match sc_means E ad p with Some s => match now E s, vec_means E ad r with Some z, Some l => Some (SeeVal z :: l) | _, _ => None end | None => None end
  end.
Definition means (E : env) (ad : list Z) (m : mode) (p : jparam) : option seen :=
  match m, p with
  | MConst, JS p => sc_means E ad p
  | MRef, JS p => ref_means E ad p
  | MObj, JO o => Some (SeeObj o)
  | MHdr, JO o => Some (SeeHdr o)
  | MHdr, JHX j => match value E j with Some (VH h) => Some (SeeHdr h) | _ => None end
  | MStr, JStr s => Some (SeeStr s)
  | MVec, JV l => match vec_means E ad l with Some v => Some (SeeVec v) | None => None end
  | MFL, JFL l => Some (SeeFL l)
  | _, _ => None
  end.
Fixpoint means_all (E : env) (ad : list Z) (ms : list mode) (ps : list jparam) : option (list seen) :=
  match ms, ps with
  | [], [] => Some []
  | m :: ms, p :: ps => match means E ad m p, means_all E ad ms ps with Some s, Some l => Some (s :: l) | _, _ => None end
  | _, _ => None
  end.

(** ** Programs that fit the primitives they call *)
Definition data_expr (j : jexp) : Prop := has_ty j TData /\ no_member j.
Definition sp_ok (p : sparam) : Prop := match p with SX j | SRG _ j => data_expr j | _ => True end.
(** Expressions that can be assigned to *)
Fixpoint lval (j : jexp) : Prop :=
  match j with JField _ _ | JStackField _ _ | JAccess _ _ | JReg _ _ | JRegGen _ _ => True | JTern _ l r => lval l /\ lval r | _ => False end.
Definition param_ok (m : mode) (p : jparam) : Prop :=
  match m, p with
  | MConst, JS p => sp_ok p
  | MRef, JS p => sp_ok p /\ match p with SC _ | SD _ => False | SX j => lval j | _ => True end
  | MObj, JO _ | MHdr, JO _ | MStr, JStr _ | MFL, JFL _ => True
  | MHdr, JHX j => has_ty j THeader /\ no_member j
  | MVec, JV l => Forall sp_ok l
  | _, _ => False
  end.
Definition is_sx (p : sparam) : bool := match p with SX _ => true | _ => false end.
Definition by_value (m : mode) (p : jparam) : bool := match m, p with MConst, JS p => is_sx p | _, _ => false end.
Definition in_vector (p : jparam) : bool := match p with JV l => existsb is_sx l | _ => false end.
(** No call has both an expression passed by value and a vector with an expression (see C37_vector_overwrites_argument_refuted) *)
Definition unmixed (c : prim * list jparam) : Prop :=
  existsb in_vector (snd c) = true -> existsb (fun mp => by_value (fst mp) (snd mp)) (combine (sig (fst c)) (snd c)) = false.
Definition call_ok (c : prim * list jparam) : Prop := Forall2 param_ok (sig (fst c)) (snd c) /\ unmixed c.
(** Number of expressions that are parameters of the action (those inside vectors not counted) *)
Definition is_ex (p : jparam) : bool := match p with JS (SX _) => true | _ => false end.
Definition expr_params (prog : list (prim * list jparam)) : nat := length (filter is_ex (flat_map snd prog)).

(** ** Execution: from the primitive number [i] in world [w]; the outcome is a world, or [None] if something undefined or an exception happens *)
Inductive performs (W : world) (ad : list Z) (prog : list (prim * list jparam)) : nat -> w_t W -> option (w_t W) -> Prop :=
| p_end i w : length prog <= i -> performs W ad prog i w (Some w)
| p_bad i w p ps : nth_error prog i = Some (p, ps) -> means_all (p_env W ad w) ad (sig p) ps = None -> performs W ad prog i w None
| p_fail i w id sg ps l : nth_error prog i = Some (POther id sg, ps) -> means_all (p_env W ad w) ad sg ps = Some l -> p_sem W id l w = None -> performs W ad prog i w None
| p_call i w id sg ps l w' o : nth_error prog i = Some (POther id sg, ps) -> means_all (p_env W ad w) ad sg ps = Some l -> p_sem W id l w = Some w' ->
    performs W ad prog (S i) w' o -> performs W ad prog i w o
| p_jump i w ps s z o : nth_error prog i = Some (PJump, ps) -> means_all (p_env W ad w) ad [MConst] ps = Some [s] -> now (p_env W ad w) s = Some z ->
    (0 <= p_int W z)%Z -> performs W ad prog (Z.to_nat (p_int W z)) w o -> performs W ad prog i w o
| p_leave i w ps s z : nth_error prog i = Some (PJump, ps) -> means_all (p_env W ad w) ad [MConst] ps = Some [s] -> now (p_env W ad w) s = Some z ->
    (p_int W z < 0)%Z -> performs W ad prog i w (Some w)
| p_zero i w ps c s z o y : nth_error prog i = Some (PJumpIfZero, ps) -> means_all (p_env W ad w) ad [MConst; MConst] ps = Some [c; s] ->
    now (p_env W ad w) c = Some z -> p_int W z = 0%Z -> now (p_env W ad w) s = Some y ->
    (0 <= p_int W y)%Z -> performs W ad prog (Z.to_nat (p_int W y)) w o -> performs W ad prog i w o
| p_zero_neg i w ps c s z o y : nth_error prog i = Some (PJumpIfZero, ps) -> means_all (p_env W ad w) ad [MConst; MConst] ps = Some [c; s] ->
    now (p_env W ad w) c = Some z -> p_int W z = 0%Z -> now (p_env W ad w) s = Some y ->
    (p_int W y < 0)%Z -> performs W ad prog (S i) w o -> performs W ad prog i w o
| p_nonzero i w ps c s z o : nth_error prog i = Some (PJumpIfZero, ps) -> means_all (p_env W ad w) ad [MConst; MConst] ps = Some [c; s] ->
    now (p_env W ad w) c = Some z -> p_int W z <> 0%Z -> performs W ad prog (S i) w o -> performs W ad prog i w o.

(** How a run of the model ends *)
Definition outcome {A B} (r : result (A * B)) : option (option A) := match r with Done (w, _) => Some (Some w) | Wrong => Some None | OutOfFuel => None end.

(** ** Structured programs: how conditionals in an action are lowered to jumps *)
Inductive stmt := Call (id : nat) (sg : list mode) (ps : list jparam) | If (c : sparam) (yes no : list stmt).
(** [if c then yes else no] at position [b]: jump_if_zero to the code of [no]; [yes]; jump to the end; [no] *)
Fixpoint size (s : stmt) : nat :=
  match s with Call _ _ _ => 1 | If _ y n => 2 + fold_right (fun s k => size s + k) 0 y + fold_right (fun s k => size s + k) 0 n end.
Definition sizes (l : list stmt) : nat := fold_right (fun s k => size s + k) 0 l.
Fixpoint lower (b : nat) (s : stmt) : list (prim * list jparam) :=
  match s with
  | Call id sg ps => [(POther id sg, ps)]
  | If c y n =>
      let low := fix low (b : nat) (l : list stmt) := match l with [] => [] | s :: r => lower b s ++ low (b + size s) r end in
      let els := b + 2 + sizes y in
      [(PJumpIfZero, [JS c; JS (SC (Z.of_nat els))])] ++ low (S b) y ++ [(PJump, [JS (SC (Z.of_nat (els + sizes n)))])] ++ low els n
  end.
Fixpoint lowers (b : nat) (l : list stmt) : list (prim * list jparam) := match l with [] => [] | s :: r => lower b s ++ lowers (b + size s) r end.
(** The meaning of a structured program *)
Inductive does (W : world) (ad : list Z) : list stmt -> w_t W -> w_t W -> Prop :=
| d_nil w : does W ad [] w w
| d_call id sg ps r w l w' w'' : means_all (p_env W ad w) ad sg ps = Some l -> p_sem W id l w = Some w' -> does W ad r w' w'' -> does W ad (Call id sg ps :: r) w w''
| d_if c y n r w s z w' w'' : sc_means (p_env W ad w) ad c = Some s -> now (p_env W ad w) s = Some z -> (- 2 ^ 31 <= z < 2 ^ 31)%Z ->
    does W ad (if Z.eq_dec z 0 then n else y) w w' -> does W ad r w' w'' -> does W ad (If c y n :: r) w w''.

(** ** Pipelines: the graph as in the JSON file *)
Inductive snode (W : world) := SCond (j : jexp) (t f : option nat) | SAction (prog : list (prim * list jparam)) (next : option nat)
  | STable (ap : w_t W -> option (w_t W * option nat)).
Arguments SCond {W}. Arguments SAction {W}. Arguments STable {W}.
(** One node: the new world and the node to go to *)
Inductive visit (W : world) : snode W -> w_t W -> w_t W -> option nat -> Prop :=
| v_true j t f w : value (p_env W [] w) j = Some (VB true) -> visit W (SCond j t f) w w t
| v_false j t f w : value (p_env W [] w) j = Some (VB false) -> visit W (SCond j t f) w w f
| v_action prog nx w w' : performs W [] prog 0 w (Some w') -> visit W (SAction prog nx) w w' nx
| v_table ap w w' nx : ap w = Some (w', nx) -> visit W (STable ap) w w' nx.
(** From node [c] the nodes [l] are visited in order; it stops after a node with no successor, and before a node if the packet is marked for exit *)
Inductive walks (W : world) (g : list (snode W)) : option nat -> w_t W -> list nat -> w_t W -> Prop :=
| w_none w : walks W g None w [] w
| w_exited n w : w_exit W w = true -> walks W g (Some n) w [] w
| w_node n nd w w' nx l w'' : w_exit W w = false -> nth_error g n = Some nd -> visit W nd w w' nx -> walks W g nx w' l w'' -> walks W g (Some n) w (n :: l) w''.
(** The graph in memory is the one read from the file *)
Inductive loaded (W : world) (ltr : bool) : snode W -> node W -> Prop :=
| l_cond j x t f : has_ty j TBool -> no_member j -> compile false j = Some x -> loaded W ltr (SCond j t f) (NCond x t f)
| l_action prog nx n0 fn n1 : Forall call_ok prog -> 1 <= n0 -> ltr = false \/ expr_params prog <= 3 -> add_prims empty_afn n0 prog = Some (fn, n1) -> loaded W ltr (SAction prog nx) (NAction fn nx)
| l_table ap : loaded W ltr (STable ap) (NTable ap).
