(** Model of expressions: src/bm_sim/expressions.cpp, and of their construction from the JSON tree,
    src/bm_sim/P4Objects.cpp 155-280 (build_expression).

    Simplifications.  The packet, the action parameters and the registers are an environment [env] of look-up functions, constant during
    an evaluation; [phv_env] is the one of PhvModel.  A pointer to a Data is a [dptr]; a pointer to a header, union, or stack
    is its id.  A failed assertion, an exception, an out-of-bounds access or popping an empty stack is [None].  The arith flags of fields
    are not modelled (build_expression sets them for the fields it mentions).  An operator name unknown to the opcode
    map is not modelled.  Computing with a destination that is also an operand is safe in data.h 217-362: each function reads its operands before
    the last write of the destination. *)
From Coq Require Import List Arith NArith ZArith Bool.
From Verif Require Import Base DataModel PhvModel.
Import ListNotations.

(** ** Instructions (expressions.h 28-57, 81-130) *)
Inductive bop := BAdd | BSub | BMod | BDiv | BMul | BShl | BShr | BAnd | BOr | BXor | BTwoComp | BUsat | BSat.
Definition dop_of (o : bop) : dop :=
  match o with BAdd => DAdd | BSub => DSub | BMod => DMod | BDiv => DDiv | BMul => DMul | BShl => DShl | BShr => DShr
             | BAnd => DAnd | BOr => DOr | BXor => DXor | BTwoComp => DTwoComp | BUsat => DUsat | BSat => DSat end.
Inductive cop := CEq | CNeq | CGt | CLt | CGe | CLe.
Inductive eop :=
| LoadField (h f : nat) | LoadHeader (h : nat) | LoadStack (k : nat) | LoadLast (k f : nat) | LoadUnion (u : nat) | LoadUStack (k : nat)
| LoadBool (b : bool) | LoadConst (i : nat) | LoadLocal (i : nat) | LoadRegRef (a i : nat) | LoadRegGen (a : nat)
| Arith (o : bop) (dest : nat) | BitNeg (dest : nat) | Cmp (c : cop)
| EqHeader | NeqHeader | EqUnion | NeqUnion | EqBool | NeqBool | AndB | OrB | NotB | ValidHeader | ValidUnion
| Ternary | Skip (n : nat) | D2B | B2D (dest : nat) | DerefStack | DerefUStack | LastIndex (dest : nat) | SizeStack (dest : nat)
| AccessField (f : nat) | AccessUnion (i : nat).

(** ** The environment *)
Record env := mk_env {
  e_field : nat -> nat -> option Z;       (* Header::get_field, the value *)
  e_last : nat -> option nat;             (* HeaderStack::get_last *)
  e_local : nat -> option Z;
  e_reg : nat -> Z -> option Z;           (* RegisterArray::at *)
  e_valid : nat -> option bool; e_cmp : nat -> nat -> option bool;
  e_uvalid : nat -> option bool; e_ucmp : nat -> nat -> option bool;
  e_at : nat -> Z -> option nat;          (* HeaderStack::at *)
  e_uat : nat -> Z -> option nat;         (* HeaderUnionStack::at *)
  e_member : nat -> nat -> option nat;    (* HeaderUnion::at *)
  e_count : nat -> option nat }.          (* HeaderStack::get_count *)
(** Data::get<size_t> (data.h 173-176): negative values throw, others keep their low 64 bits *)
Definition two64 : Z := 18446744073709551616.
Definition get_size (v : Z) : option Z := if (v <? 0)%Z then None else Some (v mod two64)%Z.

Inductive dptr := PTemp (r : nat) | PField (h f : nat) | PReg (a : nat) (i : Z) | PConst (i : nat) | PLocal (i : nat).
Inductive sptr := SHdr (k : nat) | SUn (k : nat).
(** ExpressionTemps 387-482 *)
Record mst := mk_mst { m_b : list bool; m_d : list dptr; m_h : list nat; m_s : list sptr; m_u : list nat; m_t : list Z }.
Definition deref (E : env) (cs : list Z) (t : list Z) (p : dptr) : option Z :=
  match p with
  | PTemp r => nth_error t r
  | PField h f => e_field E h f
  | PReg a i => e_reg E a i
  | PConst i => nth_error cs i
  | PLocal i => e_local E i
  end.
Definition push_b (s : mst) (b : bool) : mst := mk_mst (b :: m_b s) (m_d s) (m_h s) (m_s s) (m_u s) (m_t s).
Definition push_d (s : mst) (p : dptr) : mst := mk_mst (m_b s) (p :: m_d s) (m_h s) (m_s s) (m_u s) (m_t s).
Definition push_h (s : mst) (h : nat) : mst := mk_mst (m_b s) (m_d s) (h :: m_h s) (m_s s) (m_u s) (m_t s).
Definition push_s (s : mst) (k : sptr) : mst := mk_mst (m_b s) (m_d s) (m_h s) (k :: m_s s) (m_u s) (m_t s).
Definition push_u (s : mst) (u : nat) : mst := mk_mst (m_b s) (m_d s) (m_h s) (m_s s) (u :: m_u s) (m_t s).
Definition pop_b (s : mst) : option (bool * mst) := match m_b s with b :: r => Some (b, mk_mst r (m_d s) (m_h s) (m_s s) (m_u s) (m_t s)) | [] => None end.
Definition pop_d (s : mst) : option (dptr * mst) := match m_d s with p :: r => Some (p, mk_mst (m_b s) r (m_h s) (m_s s) (m_u s) (m_t s)) | [] => None end.
Definition pop_h (s : mst) : option (nat * mst) := match m_h s with p :: r => Some (p, mk_mst (m_b s) (m_d s) r (m_s s) (m_u s) (m_t s)) | [] => None end.
Definition pop_s (s : mst) : option (sptr * mst) := match m_s s with p :: r => Some (p, mk_mst (m_b s) (m_d s) (m_h s) r (m_u s) (m_t s)) | [] => None end.
Definition pop_u (s : mst) : option (nat * mst) := match m_u s with p :: r => Some (p, mk_mst (m_b s) (m_d s) (m_h s) (m_s s) r (m_t s)) | [] => None end.
(** data_temps[dest] = v, and push a pointer to it *)
Definition put_temp (s : mst) (dest : nat) (v : Z) : option mst :=
  if dest <? length (m_t s) then Some (mk_mst (m_b s) (PTemp dest :: m_d s) (m_h s) (m_s s) (m_u s) (list_set (m_t s) dest v)) else None.
Definition load (E : env) (cs : list Z) (s : mst) (p : dptr) : option mst := _ <- deref E cs (m_t s) p ;; Some (push_d s p).

Definition compare (c : cop) (a b : Z) : bool :=
  (match c with CEq => a =? b | CNeq => negb (a =? b) | CGt => a >? b | CLt => a <? b | CGe => a >=? b | CLe => a <=? b end)%Z.
(** Pop the right operand, then the left one *)
Definition two_d (E : env) (cs : list Z) (s : mst) (k : Z -> Z -> mst -> option mst) : option mst :=
  r <- pop_d s ;; l <- pop_d (snd r) ;; x <- deref E cs (m_t s) (fst l) ;; y <- deref E cs (m_t s) (fst r) ;; k x y (snd l).
Definition two_b (s : mst) (k : bool -> bool -> bool) : option mst := r <- pop_b s ;; l <- pop_b (snd r) ;; Some (push_b (snd l) (k (fst l) (fst r))).
Definition two_h (s : mst) (k : nat -> nat -> option bool) : option mst := r <- pop_h s ;; l <- pop_h (snd r) ;; b <- k (fst l) (fst r) ;; Some (push_b (snd l) b).
Definition two_u (s : mst) (k : nat -> nat -> option bool) : option mst := r <- pop_u s ;; l <- pop_u (snd r) ;; b <- k (fst l) (fst r) ;; Some (push_b (snd l) b).
(** The switch of eval_ 504-811; the instructions that jump are in [exec] *)
Definition eval_op (E : env) (cs : list Z) (o : eop) (s : mst) : option mst :=
  match o with
  | LoadField h f => load E cs s (PField h f)
  | LoadHeader h => Some (push_h s h)
  | LoadStack k => Some (push_s s (SHdr k))
  | LoadLast k f => h <- e_last E k ;; load E cs s (PField h f)
  | LoadUnion u => Some (push_u s u)
  | LoadUStack k => Some (push_s s (SUn k))
  | LoadBool b => Some (push_b s b)
  | LoadConst i => load E cs s (PConst i)
  | LoadLocal i => load E cs s (PLocal i)
  | LoadRegRef a i => load E cs s (PReg a (Z.of_nat i))
  | LoadRegGen a => r <- pop_d s ;; v <- deref E cs (m_t s) (fst r) ;; i <- get_size v ;; load E cs (snd r) (PReg a i)
  | AccessField f => r <- pop_h s ;; load E cs (snd r) (PField (fst r) f)
  | AccessUnion i => r <- pop_u s ;; h <- e_member E (fst r) i ;; Some (push_h (snd r) h)
  | Arith o dest => two_d E cs s (fun x y s' => v <- d_op (dop_of o) x y ;; put_temp s' dest v)
  | BitNeg dest => r <- pop_d s ;; x <- deref E cs (m_t s) (fst r) ;; v <- d_op DNeg x 0%Z ;; put_temp (snd r) dest v
  | Cmp c => two_d E cs s (fun x y s' => Some (push_b s' (compare c x y)))
  | EqHeader => two_h s (e_cmp E)
  | NeqHeader => two_h s (fun a b => option_map negb (e_cmp E a b))
  | EqUnion => two_u s (e_ucmp E)
  | NeqUnion => two_u s (fun a b => option_map negb (e_ucmp E a b))
  | EqBool => two_b s Bool.eqb
  | NeqBool => two_b s (fun a b => negb (Bool.eqb a b))
  | AndB => two_b s andb
  | OrB => two_b s orb
  | NotB => r <- pop_b s ;; Some (push_b (snd r) (negb (fst r)))
  | ValidHeader => r <- pop_h s ;; b <- e_valid E (fst r) ;; Some (push_b (snd r) b)
  | ValidUnion => r <- pop_u s ;; b <- e_uvalid E (fst r) ;; Some (push_b (snd r) b)
  | D2B => r <- pop_d s ;; x <- deref E cs (m_t s) (fst r) ;; Some (push_b (snd r) (negb (x =? 0)%Z))
  | B2D dest => r <- pop_b s ;; put_temp (snd r) dest (if fst r then 1 else 0)%Z
  | DerefStack => r <- pop_d s ;; v <- deref E cs (m_t s) (fst r) ;; i <- get_size v ;; k <- pop_s (snd r) ;;
                  match fst k with SHdr k' => h <- e_at E k' i ;; Some (push_h (snd k) h) | SUn _ => None end
  | DerefUStack => r <- pop_d s ;; v <- deref E cs (m_t s) (fst r) ;; i <- get_size v ;; k <- pop_s (snd r) ;;
                   match fst k with SUn k' => u <- e_uat E k' i ;; Some (push_u (snd k) u) | SHdr _ => None end
  | LastIndex dest => k <- pop_s s ;; match fst k with SHdr k' => n <- e_count E k' ;; put_temp (snd k) dest ((Z.of_nat n - 1) mod two64)%Z | SUn _ => None end
  | SizeStack dest => k <- pop_s s ;; match fst k with SHdr k' => n <- e_count E k' ;; put_temp (snd k) dest (Z.of_nat n) | SUn _ => None end
  | Ternary | Skip _ => None
  end.
(** The loop 503 over the instructions; [sk] instructions are still to be skipped (i += n) *)
Fixpoint exec (E : env) (cs : list Z) (ops : list eop) (sk : nat) (s : mst) : option mst :=
  match ops with
  | [] => Some s
  | o :: rest =>
      match sk with
      | S k => exec E cs rest k s
      | O =>
          match o with
          | Ternary => r <- pop_b s ;; exec E cs rest (if fst r then 1 else 0) (snd r)
          | Skip n => exec E cs rest n s
          | _ => s' <- eval_op E cs o s ;; exec E cs rest 0 s'
          end
      end
  end.

(** ** assign_dest_registers 897-995: [new_registers] is a stack whose sum is registers_curr *)
Definition ast := (list nat * nat * nat)%type.   (* new_registers, registers_curr, registers_cnt *)
Definition popr (s : list nat * nat) : option (list nat * nat) := match fst s with n :: r => Some (r, snd s - n) | [] => None end.
Definition assign_op (o : eop) (s : list nat * nat) : option (eop * (list nat * nat)) :=
  match o with
  | Arith b _ => s1 <- popr s ;; s2 <- popr s1 ;; Some (Arith b (snd s2), (1 :: fst s2, snd s2 + 1))
  | BitNeg _ => s1 <- popr s ;; Some (BitNeg (snd s1), (1 :: fst s1, snd s1 + 1))
  | B2D _ => Some (B2D (snd s), (1 :: fst s, snd s + 1))
  | LastIndex _ => Some (LastIndex (snd s), (1 :: fst s, snd s + 1))
  | SizeStack _ => Some (SizeStack (snd s), (1 :: fst s, snd s + 1))
  | Cmp _ => s1 <- popr s ;; s2 <- popr s1 ;; Some (o, s2)
  | D2B | DerefStack | DerefUStack => s1 <- popr s ;; Some (o, s1)
  | LoadConst _ | LoadLocal _ | LoadField _ _ | LoadLast _ _ | LoadRegRef _ _ | AccessField _ => Some (o, (0 :: fst s, snd s))
  | LoadRegGen _ => s1 <- popr s ;; Some (o, (0 :: fst s1, snd s1))
  | _ => Some (o, s)
  end.
Fixpoint assign (ops : list eop) (s : list nat * nat) (cnt : nat) : option (list eop * (list nat * nat) * nat) :=
  match ops with
  | [] => Some ([], s, cnt)
  | o :: r => q <- assign_op o s ;; q' <- assign r (snd q) (Nat.max cnt (snd (snd q))) ;; Some (fst q :: fst (fst q'), snd (fst q'), snd q')
  end.

(** ** Building: the instructions and constants so far *)
Definition expr := (list eop * list Z)%type.
Definition push_op (x : expr) (o : eop) : expr := (fst x ++ [o], snd x).
(** push_back_load_const 273-279 *)
Definition push_const (x : expr) (v : Z) : expr := (fst x ++ [LoadConst (length (snd x))], snd x ++ [v]).
(** append_expression 313-325 *)
Definition append_expr (x e : expr) : expr :=
  (fst x ++ map (fun o => match o with LoadConst i => LoadConst (i + length (snd x)) | _ => o end) (fst e), snd x ++ snd e).
(** push_back_ternary_op 342-354 *)
Definition push_ternary (x e1 e2 : expr) : expr :=
  append_expr (push_op (append_expr (push_op (push_op x Ternary) (Skip (length (fst e1) + 1))) e1) (Skip (length (fst e2)))) e2.

(** The JSON tree; operators by the opcode they are mapped to (opcodes_map 27-83) *)
Inductive jop := OBin (b : bop) | ONeg | OCmp (c : cop) | OEqH | ONeqH | OEqU | ONeqU | OEqB | ONeqB | OAndB | OOrB | ONot
  | OValid | OValidU | OD2B | OB2D | ODeref | ODerefU | OLastIndex | OSize.
Inductive jexp :=
| JNull
| JTern (c l r : jexp) | JEq (neg : bool) (l r : jexp) | JAccess (l : jexp) (f : nat) | JAccessU (l : jexp) (i : nat) | JOp (o : jop) (l r : jexp)
| JHeader (h : nat) | JField (h f : nat) | JBool (b : bool) | JHex (v : Z) | JLocal (i : nat) | JReg (a i : nat) | JRegGen (a : nat) (i : jexp)
| JStack (k : nat) | JStackField (k f : nat) | JUnion (u : nat) | JUStack (k : nat).
Inductive ty := TUnknown | TData | THeader | TStack | TBool | TUnion | TUStack.
Definition ty_eqb (a b : ty) : bool :=
  match a, b with TUnknown, TUnknown | TData, TData | THeader, THeader | TStack, TStack | TBool, TBool | TUnion, TUnion | TUStack, TUStack => true | _, _ => false end.
Definition opcode (o : jop) : eop :=
  match o with OBin b => Arith b 0 | ONeg => BitNeg 0 | OCmp c => Cmp c | OEqH => EqHeader | ONeqH => NeqHeader | OEqU => EqUnion | ONeqU => NeqUnion | OEqB => EqBool | ONeqB => NeqBool
  | OAndB => AndB | OOrB => OrB | ONot => NotB | OValid => ValidHeader | OValidU => ValidUnion | OD2B => D2B | OB2D => B2D 0 | ODeref => DerefStack | ODerefU => DerefUStack
  | OLastIndex => LastIndex 0 | OSize => SizeStack 0 end.
(** get_opcode_type 128-203 *)
Definition opcode_type (o : jop) : ty :=
  match o with OBin _ | ONeg | OB2D | OLastIndex | OSize => TData | ODeref => THeader | ODerefU => TUnion | _ => TBool end.
(** get_eq_opcode, get_neq_opcode 96-126 *)
Definition eq_opcode (neg : bool) (t : ty) : option eop :=
  match t with
  | TData => Some (Cmp (if neg then CNeq else CEq))
  | THeader => Some (if neg then NeqHeader else EqHeader)
  | TBool => Some (if neg then NeqBool else EqBool)
  | TUnion => Some (if neg then NeqUnion else EqUnion)
  | _ => None
  end.
(** P4Objects::build_expression 155-280.  With [api] the union member is pushed by push_back_access_union_header, as a client of class
    Expression can do; the JSON reader uses push_back_access_field (P4Objects.cpp 199). *)
Fixpoint build (api : bool) (j : jexp) (x : expr) : option (expr * ty) :=
  match j with
  | JNull => Some (x, TUnknown)
  | JTern c l r =>
      x0 <- build api c x ;;
      e1 <- build api l ([], []) ;;
      e2 <- build api r ([], []) ;;
      if ty_eqb (snd e1) (snd e2) then Some (push_ternary (fst x0) (fst e1) (fst e2), snd e1) else None
  | JEq neg l r =>
      x1 <- build api l x ;;
      x2 <- build api r (fst x1) ;;
      if ty_eqb (snd x1) (snd x2) then o <- eq_opcode neg (snd x1) ;; Some (push_op (fst x2) o, TBool) else None
  | JAccess l f => x1 <- build api l x ;; if ty_eqb (snd x1) THeader then Some (push_op (fst x1) (AccessField f), TData) else None
  | JAccessU l i => x1 <- build api l x ;; if ty_eqb (snd x1) TUnion then Some (push_op (fst x1) (if api then AccessUnion i else AccessField i), THeader) else None
  | JOp o l r =>
      x1 <- (match o, l with OBin BAdd, JNull | OBin BSub, JNull => Some (push_const x 0%Z, TUnknown) | _, _ => build api l x end) ;;
      x2 <- build api r (fst x1) ;;
      Some (push_op (fst x2) (opcode o), opcode_type o)
  | JHeader h => Some (push_op x (LoadHeader h), THeader)
  | JField h f => Some (push_op x (LoadField h f), TData)
  | JBool b => Some (push_op x (LoadBool b), TBool)
  | JHex v => Some (push_const x v, TData)
  | JLocal i => Some (push_op x (LoadLocal i), TData)
  | JReg a i => Some (push_op x (LoadRegRef a i), TData)
  | JRegGen a i => x1 <- build api i x ;; Some (push_op (fst x1) (LoadRegGen a), TData)
  | JStack k => Some (push_op x (LoadStack k), TStack)
  | JStackField k f => Some (push_op x (LoadLast k f), TData)
  | JUnion u => Some (push_op x (LoadUnion u), TUnion)
  | JUStack k => Some (push_op x (LoadUStack k), TUStack)
  end.
(** Expression::build 374-377: the instructions with their destinations, and data_registers_cnt *)
Definition finish (x : expr) : option (list eop * nat) := q <- assign (fst x) ([], 0) 0 ;; Some (fst (fst q), snd q).
(** prepare 391-402: [t] is what earlier evaluations of the thread left in the temporaries *)
Definition prepare (t : list Z) (cnt : nat) : mst := mk_mst [] [] [] [] [] (t ++ repeat 0%Z (cnt - length t)).
(** A built expression: instructions, constants, register count *)
Definition built := (list eop * list Z * nat)%type.
Definition compile (api : bool) (j : jexp) : option built := x <- build api j ([], []) ;; q <- finish (fst x) ;; Some (fst q, snd (fst x), snd q).
Definition run_built (E : env) (x : built) (t : list Z) : option mst := exec E (snd (fst x)) (fst (fst x)) 0 (prepare t (snd x)).
(** eval_bool 815-825, eval_arith 827-846, and the evaluations to references 856-895 *)
Definition eval_bool (E : env) (x : built) (t : list Z) : option bool :=
  match fst (fst x) with [] => Some false | _ => s <- run_built E x t ;; r <- pop_b s ;; Some (fst r) end.
Definition eval_arith (E : env) (x : built) (t : list Z) : option Z :=
  match fst (fst x) with [] => Some 0%Z | _ => s <- run_built E x t ;; r <- pop_d s ;; deref E (snd (fst x)) (m_t s) (fst r) end.
Definition eval_lvalue (E : env) (x : built) (t : list Z) : option dptr := s <- run_built E x t ;; r <- pop_d s ;; Some (fst r).
Definition eval_header (E : env) (x : built) (t : list Z) : option nat := s <- run_built E x t ;; r <- pop_h s ;; Some (fst r).
Definition eval_stack (E : env) (x : built) (t : list Z) : option sptr := s <- run_built E x t ;; r <- pop_s s ;; Some (fst r).
Definition eval_union (E : env) (x : built) (t : list Z) : option nat := s <- run_built E x t ;; r <- pop_u s ;; Some (fst r).

(** VLHeaderExpression::resolve 1015-1030 *)
Definition resolve_op (h : nat) (o : eop) : eop := match o with LoadLocal i => LoadField h i | _ => o end.
Definition resolve (h : nat) (x : built) : built := (map (resolve_op h) (fst (fst x)), snd (fst x), snd x).

(** ** The environment of a packet *)
(** Field::get_value (fields.cpp 143-166): a hidden field is always read; [rz] is ret_zero_on_invalid_hdr_read *)
Definition phv_field (rz : bool) (d : desc) (s : phv) (h f : nat) : option Z :=
  t <- nth_error (ds_h d) h ;;
  x <- nth_error (p_h s) h ;;
  if f =? length (d_fields x) then Some (if d_vf x then 1 else 0)%Z
  else v <- nth_error (d_fields x) f ;; Some (if rz && negb (is_valid t x) then 0%Z else snd v).
Fixpoint zs_eqb (a b : list Z) : bool := match a, b with [], [] => true | x :: a, y :: b => (x =? y)%Z && zs_eqb a b | _, _ => false end.
(** Header::cmp (headers.cpp 310-315) *)
Definition hdr_cmp (d : desc) (s : phv) (a b : nat) : option bool :=
  ta <- nth_error (ds_h d) a ;;
  tb <- nth_error (ds_h d) b ;;
  x <- nth_error (p_h s) a ;;
  y <- nth_error (p_h s) b ;;
  Some ((hd_ty ta =? hd_ty tb) && is_valid ta x && is_valid tb y && (zs_eqb (map snd (d_fields x)) (map snd (d_fields y)) && Bool.eqb (d_vf x) (d_vf y))).
(** HeaderUnion::cmp (header_unions.cpp 16-21) *)
Definition union_cmp (d : desc) (s : phv) (a b : nat) : option bool :=
  x <- nth_error (p_u s) a ;;
  y <- nth_error (p_u s) b ;;
  if fst x && fst y && (snd x =? snd y)
  then ma <- nth_error (ds_u d) a ;; mb <- nth_error (ds_u d) b ;; ha <- nth_error ma (snd x) ;; hb <- nth_error mb (snd x) ;; hdr_cmp d s ha hb
  else Some false.
Definition phv_env (rz : bool) (d : desc) (s : phv) (locals : list Z) (regs : list (list Z)) : env := {|
  e_field := phv_field rz d s;
  e_last := fun k => e <- nth_error (ds_s d) k ;; n <- nth_error (p_s s) k ;; match n with O => None | S m => nth_error e m end;
  e_local := nth_error locals;
  e_reg := fun a i => r <- nth_error regs a ;; nth_error r (Z.to_nat i);
  e_valid := fun h => t <- nth_error (ds_h d) h ;; x <- nth_error (p_h s) h ;; Some (is_valid t x);
  e_cmp := hdr_cmp d s;
  e_uvalid := fun u => x <- nth_error (p_u s) u ;; Some (fst x);
  e_ucmp := union_cmp d s;
  e_at := fun k i => e <- nth_error (ds_s d) k ;; nth_error e (Z.to_nat i);
  e_uat := fun k i => e <- nth_error (ds_us d) k ;; nth_error e (Z.to_nat i);
  e_member := fun u i => m <- nth_error (ds_u d) u ;; nth_error m i;
  e_count := fun k => nth_error (p_s s) k |}.
