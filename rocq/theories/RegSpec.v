(** What register arrays are for their users. *)
From Coq Require Import List Arith ZArith Bool.
From Verif Require Import DataModel ExprModel ActionModel RegModel.
Import ListNotations.

(** ** Values: [dims] gives the width and the size of each array; the contents are a function of array and index *)
Definition dims : Type := list (nat * nat).
Definition content : Type := nat -> nat -> Z.
Definition cells (c : content) (a n : nat) : list Z := map (c a) (seq 0 n).
(** [c'] is [c] but for the registers of [a] with an index in [P], which hold [v] modulo 2^w *)
Definition wrote (c c' : content) (a : nat) (P : nat -> Prop) (w : nat) (v : Z) : Prop :=
  (forall i, P i -> c' a i = (v mod 2 ^ Z.of_nat w)%Z) /\ (forall b i, ~ (b = a /\ P i) -> c' b i = c b i).
Definition same (c c' : content) : Prop := forall b i, c' b i = c b i.
(** The effect of a call and what it returns *)
Definition answers (D : dims) (c : content) (k : rcall) (c' : content) (r : rres) : Prop :=
  match k with
  | RRead a i =>
      same c c' /\ match nth_error D a with
      | None => r = (RBadName, [], [])
      | Some (w, n) => (i < n -> r = (ROk, [c a i], [])) /\ (n <= i -> r = (RBadIndex, [], []))
      end
  | RReadAll a => same c c' /\ r = (ROk, match nth_error D a with None => [] | Some (w, n) => cells c a n end, [])
  | RWrite a i v =>
      match nth_error D a with
      | None => same c c' /\ r = (RBadName, [], [])
      | Some (w, n) => (i < n -> wrote c c' a (eq i) w v /\ r = (ROk, [], [i])) /\ (n <= i -> same c c' /\ r = (RBadIndex, [], []))
      end
  | RRange a s e v =>
      match nth_error D a with
      | None => same c c' /\ r = (RBadName, [], [])
      | Some (w, n) => (s <= e <= n -> wrote c c' a (fun i => s <= i < e) w v /\ r = (ROk, [], seq s (e - s))) /\
                       (~ s <= e <= n -> same c c' /\ r = (RBadIndex, [], []))
      end
  | RReset a =>
      match nth_error D a with
      | None => same c c' /\ r = (RBadName, [], [])
      | Some (w, n) => wrote c c' a (fun _ => True) w 0 /\ r = (ROk, [], [])
      end
  | RSet a i v => exists w n, nth_error D a = Some (w, n) /\ i < n /\ wrote c c' a (eq i) w v /\ r = (ROk, [], [i])
  | ROp a i o x y => exists w n v, nth_error D a = Some (w, n) /\ i < n /\ d_op o x y = Some v /\ wrote c c' a (eq i) w v /\ r = (ROk, [], [i])
  end.
Inductive history (D : dims) : content -> list rcall -> content -> list rres -> Prop :=
| h_nil c : history D c [] c []
| h_cons c k c1 r l c2 rs : answers D c k c1 r -> history D c1 l c2 rs -> history D c (k :: l) c2 (r :: rs).
(** A call that a program may make: a primitive accesses existing registers, with an operation that is defined *)
Definition legal (D : dims) (k : rcall) : Prop :=
  match k with
  | RSet a i _ => exists w n, nth_error D a = Some (w, n) /\ i < n
  | ROp a i o x y => (exists w n, nth_error D a = Some (w, n) /\ i < n) /\ d_op o x y <> None
  | _ => True
  end.

(** ** The arrays that occur in an expression, a parameter, an action *)
Fixpoint arrays_in (j : jexp) : list nat :=
  match j with
  | JReg a _ => [a]
  | JRegGen a i => a :: arrays_in i
  | JTern c l r => arrays_in c ++ arrays_in l ++ arrays_in r
  | JEq _ l r | JOp _ l r => arrays_in l ++ arrays_in r
  | JAccess l _ | JAccessU l _ => arrays_in l
  | _ => []
  end.
Definition arrays_scalar (p : sparam) : list nat := match p with SX j => arrays_in j | SRG a j => a :: arrays_in j | SR a _ => [a] | _ => [] end.
Definition arrays_param (ro : nat -> option nat) (p : jparam) : list nat :=
  match p with
  | JS p => arrays_scalar p
  | JO o => match ro o with Some a => [a] | None => [] end
  | JHX j => arrays_in j
  | JV l => flat_map arrays_scalar l
  | JStr _ | JFL _ => []
  end.
Definition arrays_action (ro : nat -> option nat) (prog : list (prim * list jparam)) : list nat := flat_map (fun c => flat_map (arrays_param ro) (snd c)) prog.
(** Header expressions do not read registers *)
Definition plain_header (p : jparam) : Prop := match p with JHX j => arrays_in j = [] | _ => True end.
Definition plain_headers (prog : list (prim * list jparam)) : Prop := Forall (fun c => Forall plain_header (snd c)) prog.
Definition arrays_pop (ro : nat -> option nat) (o : pop) : list nat :=
  match o with
  | PSetExpr j | PAdvanceExpr j | PExtractVL j => arrays_in j
  | PVerify c e => arrays_in c ++ arrays_in e
  | PCall prog => arrays_action ro prog
  | PPlain => []
  end.
Definition plain_pop (o : pop) : Prop :=
  match o with PAdvanceExpr j | PExtractVL j => arrays_in j = [] | PVerify c e => arrays_in c ++ arrays_in e = [] | PCall prog => plain_headers prog | _ => True end.
(** [E'] is [E] with other values in the registers of arrays outside [L] *)
Definition with_regs (E : env) (r : nat -> Z -> option Z) : env :=
  mk_env (e_field E) (e_last E) (e_local E) r (e_valid E) (e_cmp E) (e_uvalid E) (e_ucmp E) (e_at E) (e_uat E) (e_member E) (e_count E).
Definition agree_on (L : list nat) (E : env) (r : nat -> Z -> option Z) : Prop := forall a i, In a L -> r a i = e_reg E a i.
(** What a primitive receives refers to registers of [L] only *)
Definition refs_in (ro : nat -> option nat) (L : list nat) (s : seen) : Prop :=
  match s with SeeLoc (PReg a _) => In a L | SeeObj o => match ro o with Some a => In a L | None => True end | _ => True end.

(** ** Threads: executing one call alone, and calls one after the other *)
Fixpoint alone (p : acts) (c : content) : content * list Z :=
  match p with
  | Ret => (c, [])
  | Rd a i k => let '(c', l) := alone (k (c a i)) c in (c', c a i :: l)
  | Wr a i v k => alone k (fun b j => if (b =? a) && (j =? i) then v else c b j)
  end.
(** [serial c l c']: the calls of [l] (thread, accesses, values read), one after the other *)
Inductive serial : content -> list (nat * acts * list Z) -> content -> Prop :=
| s_nil c c' : (forall a i, c' a i = c a i) -> serial c [] c'
| s_snoc c l c1 t p c2 c3 log : serial c l c1 -> alone p c1 = (c2, log) -> (forall a i, c3 a i = c2 a i) -> serial c (l ++ [(t, p, log)]) c3.
(** Accesses only registers of [L] *)
Fixpoint within (L : list nat) (p : acts) : Prop :=
  match p with Ret => True | Rd a i k => In a L /\ forall v, within L (k v) | Wr a i _ k => In a L /\ within L k end.
Definition call_within (e : tev) : Prop := match e with TCall _ L p => within L p | TReset _ => False | _ => True end.
Definition calls_of (t : nat) (es : list tev) : list acts := flat_map (fun e => match e with TCall u _ p => if u =? t then [p] else [] | _ => [] end) es.
Definition results_of (t : nat) (xs : list (nat * list Z)) : list (list Z) := flat_map (fun x => if fst x =? t then [snd x] else []) xs.
(** The calls of thread [t] in a serial execution *)
Definition of_thread (t : nat) (l : list (nat * acts * list Z)) : list (acts * list Z) := flat_map (fun x => if fst (fst x) =? t then [(snd (fst x), snd x)] else []) l.
