(** The meaning of an expression tree, given directly on the tree. *)
From Coq Require Import List Arith ZArith Bool.
From Verif Require Import DataModel PhvModel ExprModel.
Import ListNotations.

Inductive val := VD (z : Z) | VB (b : bool) | VH (h : nat) | VS (k : nat) | VU (u : nat) | VUS (k : nat).
Definition compares (c : cop) (a b : Z) : Prop := (match c with CEq => a = b | CNeq => a <> b | CGt => a > b | CLt => a < b | CGe => a >= b | CLe => a <= b end)%Z.
Definition compares_dec (c : cop) (a b : Z) : {compares c a b} + {~ compares c a b}.
Proof. destruct c; cbn; [apply Z.eq_dec|destruct (Z.eq_dec a b); [right; congruence|left; auto]|destruct (Z_gt_dec a b); auto|destruct (Z_lt_dec a b); auto|destruct (Z_ge_dec a b); auto|destruct (Z_le_dec a b); auto]. Defined.
(** Signatures of the operators *)
Definition un_sig (o : jop) : option (ty * ty) :=
  match o with
  | ONeg => Some (TData, TData) | ONot => Some (TBool, TBool) | OValid => Some (THeader, TBool) | OValidU => Some (TUnion, TBool)
  | OD2B => Some (TData, TBool) | OB2D => Some (TBool, TData) | OLastIndex => Some (TStack, TData) | OSize => Some (TStack, TData)
  | _ => None
  end.
Definition bin_sig (o : jop) : option (ty * ty * ty) :=
  match o with
  | OBin _ => Some (TData, TData, TData) | OCmp _ => Some (TData, TData, TBool)
  | OEqH | ONeqH => Some (THeader, THeader, TBool) | OEqU | ONeqU => Some (TUnion, TUnion, TBool)
  | OEqB | ONeqB | OAndB | OOrB => Some (TBool, TBool, TBool)
  | ODeref => Some (TStack, TData, THeader) | ODerefU => Some (TUStack, TData, TUnion)
  | _ => None
  end.
Inductive has_ty : jexp -> ty -> Prop :=
| t_tern c l r t : has_ty c TBool -> has_ty l t -> has_ty r t -> has_ty (JTern c l r) t
| t_eq neg l r t : In t [TData; THeader; TBool; TUnion] -> has_ty l t -> has_ty r t -> has_ty (JEq neg l r) TBool
| t_access l f : has_ty l THeader -> has_ty (JAccess l f) TData
| t_accessu l i : has_ty l TUnion -> has_ty (JAccessU l i) THeader
| t_un_r o r a t : un_sig o = Some (a, t) -> has_ty r a -> has_ty (JOp o JNull r) t
| t_un_l o l a t : un_sig o = Some (a, t) -> has_ty l a -> has_ty (JOp o l JNull) t
| t_sign o r : o = BAdd \/ o = BSub -> has_ty r TData -> has_ty (JOp (OBin o) JNull r) TData
| t_bin o l r a b t : bin_sig o = Some (a, b, t) -> has_ty l a -> has_ty r b -> has_ty (JOp o l r) t
| t_header h : has_ty (JHeader h) THeader
| t_field h f : has_ty (JField h f) TData
| t_bool b : has_ty (JBool b) TBool
| t_hex v : has_ty (JHex v) TData
| t_local i : has_ty (JLocal i) TData
| t_reg a i : has_ty (JReg a i) TData
| t_reggen a i : has_ty i TData -> has_ty (JRegGen a i) TData
| t_stack k : has_ty (JStack k) TStack
| t_stackfield k f : has_ty (JStackField k f) TData
| t_union u : has_ty (JUnion u) TUnion
| t_ustack k : has_ty (JUStack k) TUStack.

(** Arithmetic on unbounded integers; shift amounts keep their low 32 bits; the three casts are those of C24 *)
Definition sem_arith (b : bop) (x y : Z) : option Z :=
  (match b with
  | BAdd => Some (x + y) | BSub => Some (x - y) | BMul => Some (x * y)
  | BDiv => if Z_le_dec 0 x then if Z_lt_dec 0 y then Some (x / y) else None else None
  | BMod => if Z_le_dec 0 x then if Z_lt_dec 0 y then Some (x mod y) else None else None
  | BShl => if Z_le_dec 0 y then Some (x * 2 ^ (y mod 2 ^ 32)) else None
  | BShr => if Z_le_dec 0 y then Some (x / 2 ^ (y mod 2 ^ 32)) else None
  | BAnd => Some (Z.land x y) | BOr => Some (Z.lor x y) | BXor => Some (Z.lxor x y)
  | BTwoComp => d_op DTwoComp x y | BUsat => d_op DUsat x y | BSat => d_op DSat x y
  end)%Z.
(** Operators on values *)
Definition sem_un (E : env) (o : jop) (v : val) : option val :=
  match o, v with
  | ONeg, VD x => Some (VD (- x - 1))
  | ONot, VB b => Some (VB (negb b))
  | OValid, VH h => b <- e_valid E h ;; Some (VB b)
  | OValidU, VU u => b <- e_uvalid E u ;; Some (VB b)
  | OD2B, VD x => Some (VB (if Z.eq_dec x 0 then false else true))
  | OB2D, VB b => Some (VD (if b then 1 else 0)%Z)
  | OLastIndex, VS k => n <- e_count E k ;; Some (VD (if Nat.eq_dec n 0 then two64 - 1 else (Z.of_nat n - 1) mod two64)%Z)
  | OSize, VS k => n <- e_count E k ;; Some (VD (Z.of_nat n))
  | _, _ => None
  end.
Definition sem_bin (E : env) (o : jop) (v w : val) : option val :=
  match o, v, w with
  | OBin b, VD x, VD y => z <- sem_arith b x y ;; Some (VD z)
  | OCmp c, VD x, VD y => Some (VB (if compares_dec c x y then true else false))
  | OEqH, VH a, VH b => r <- e_cmp E a b ;; Some (VB r)
  | ONeqH, VH a, VH b => r <- e_cmp E a b ;; Some (VB (negb r))
  | OEqU, VU a, VU b => r <- e_ucmp E a b ;; Some (VB r)
  | ONeqU, VU a, VU b => r <- e_ucmp E a b ;; Some (VB (negb r))
  | OEqB, VB a, VB b => Some (VB (if bool_dec a b then true else false))
  | ONeqB, VB a, VB b => Some (VB (if bool_dec a b then false else true))
  | OAndB, VB a, VB b => Some (VB (a && b))
  | OOrB, VB a, VB b => Some (VB (a || b))
  | ODeref, VS k, VD i => if Z_lt_dec i 0 then None else h <- e_at E k (i mod two64)%Z ;; Some (VH h)
  | ODerefU, VUS k, VD i => if Z_lt_dec i 0 then None else u <- e_uat E k (i mod two64)%Z ;; Some (VU u)
  | _, _, _ => None
  end.
Definition sem_eq (E : env) (neg : bool) (v w : val) : option val :=
  match v with
  | VD _ => sem_bin E (OCmp (if neg then CNeq else CEq)) v w
  | VB _ => sem_bin E (if neg then ONeqB else OEqB) v w
  | VH _ => sem_bin E (if neg then ONeqH else OEqH) v w
  | VU _ => sem_bin E (if neg then ONeqU else OEqU) v w
  | _ => None
  end.
Definition is_null (j : jexp) : bool := match j with JNull => true | _ => false end.
(** The value of a tree.  A conditional evaluates one branch only; all other operators evaluate all their operands. *)
Fixpoint value (E : env) (j : jexp) : option val :=
  match j with
  | JNull => None
  | JTern c l r => match value E c with Some (VB true) => value E l | Some (VB false) => value E r | _ => None end
  | JEq neg l r => v <- value E l ;; w <- value E r ;; sem_eq E neg v w
  | JAccess l f => match value E l with Some (VH h) => z <- e_field E h f ;; Some (VD z) | _ => None end
  | JAccessU l i => match value E l with Some (VU u) => h <- e_member E u i ;; Some (VH h) | _ => None end
  | JOp o l r =>
      if is_null l then v <- value E r ;; match o with OBin BAdd | OBin BSub => sem_bin E o (VD 0) v | _ => sem_un E o v end   (* + x, - x *)
      else if is_null r then v <- value E l ;; sem_un E o v
      else v <- value E l ;; w <- value E r ;; sem_bin E o v w
  | JHeader h => Some (VH h)
  | JField h f => z <- e_field E h f ;; Some (VD z)
  | JBool b => Some (VB b)
  | JHex z => Some (VD z)
  | JLocal i => z <- e_local E i ;; Some (VD z)
  | JReg a i => z <- e_reg E a (Z.of_nat i) ;; Some (VD z)
  | JRegGen a i => match value E i with Some (VD z) => if Z_lt_dec z 0 then None else y <- e_reg E a (z mod two64)%Z ;; Some (VD y) | _ => None end
  | JStack k => Some (VS k)
  | JStackField k f => h <- e_last E k ;; z <- e_field E h f ;; Some (VD z)
  | JUnion u => Some (VU u)
  | JUStack k => Some (VUS k)
  end.
(** What a tree that can be assigned to refers to *)
Fixpoint refers (E : env) (j : jexp) : option dptr :=
  match j with
  | JField h f => Some (PField h f)
  | JStackField k f => h <- e_last E k ;; Some (PField h f)
  | JAccess l f => match value E l with Some (VH h) => Some (PField h f) | _ => None end
  | JReg a i => Some (PReg a (Z.of_nat i))
  | JRegGen a i => match value E i with Some (VD z) => if Z_lt_dec z 0 then None else Some (PReg a (z mod two64)%Z) | _ => None end
  | JTern c l r => match value E c with Some (VB true) => refers E l | Some (VB false) => refers E r | _ => None end
  | _ => None
  end.
(** No access to a member of a union *)
Fixpoint no_member (j : jexp) : Prop :=
  match j with
  | JAccessU _ _ => False
  | JTern c l r => no_member c /\ no_member l /\ no_member r
  | JEq _ l r | JOp _ l r => no_member l /\ no_member r
  | JAccess l _ | JRegGen _ l => no_member l
  | _ => True
  end.
