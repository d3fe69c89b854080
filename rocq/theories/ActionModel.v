(** Model of actions (src/bm_sim/actions.cpp, include/bm/bm_sim/actions.h), of the part of the JSON reader that fills them (src/bm_sim/P4Objects.cpp 283-440),
    and of pipelines (src/bm_sim/pipeline.cpp, conditionals.cpp, control_action.cpp).

    Simplifications.  What a primitive does to the packet is a parameter of the model ([p_sem], any function of the arguments it receives and of the world);
    only the two jump primitives are modelled.  Headers, stacks, arrays, calculations and externs are one kind of argument, an object id.
    Strings are numbers.  What the thread's expression temporaries held ([old]) is fixed: by C36 it does not matter.
    The locks taken around an action (operator() 424-443) are in C40.  Undefined behaviour, exceptions and failed assertions are [None]. *)
From Coq Require Import List Arith ZArith Bool.
From Verif Require Import Base PhvModel ExprModel.
Import ListNotations.

(** ** Parameters as in the JSON file *)
Inductive sparam := SC (z : Z) | SD (i : nat) | SF (h f : nat) | SX (j : jexp) | SRG (a : nat) (j : jexp) | SR (a i : nat) | SSF (k f : nat).
Inductive jparam := JS (p : sparam) | JO (o : nat) | JHX (j : jexp) | JStr (s : nat) | JV (l : list sparam) | JFL (l : list (nat * nat)).
(** actions.h ActionParam 166-258 *)
Inductive cparam := CConst (off : nat) | CData (i : nat) | CField (h f : nat) | CExpr (off : nat) (x : built) | CRegGen (a : nat) (x : built) | CReg (a i : nat)
  | CStackField (k f : nat) | CObj (o : nat) | CHX (x : built) | CStr (gen idx : nat) | CVec (s e : nat) | CFL (s e : nat).

(** How a primitive declares an argument: const Data &, Data &, an object, a header, a string, a vector of Data, a vector of Field *)
Inductive mode := MConst | MRef | MObj | MHdr | MStr | MVec | MFL.
(** What the primitive receives: a value that nothing changes during the call, or a reference to a field or register *)
Inductive seen := SeeVal (z : Z) | SeeLoc (p : dptr) | SeeObj (o : nat) | SeeHdr (h : nat) | SeeStr (s : nat) | SeeVec (l : list seen) | SeeFL (l : list (nat * nat)).
Inductive prim := PJump | PJumpIfZero | POther (id : nat) (sig : list mode).
Definition sig (p : prim) : list mode := match p with PJump => [MConst] | PJumpIfZero => [MConst; MConst] | POther _ l => l end.
Definition arity (p : prim) : nat := length (sig p).

(** ** actions.h ActionFn 727- *)
Record afn := mk_afn { a_params : list cparam; a_subs : list cparam; a_consts : list Z; a_strs : list nat; a_gen : nat; a_calls : list (prim * nat) }.
Definition empty_afn : afn := mk_afn [] [] [] [] 0 [].
Definition set_params (a : afn) (l : list cparam) : afn := mk_afn l (a_subs a) (a_consts a) (a_strs a) (a_gen a) (a_calls a).
Definition add_param (a : afn) (p : cparam) : afn := set_params a (a_params a ++ [p]).
(** params.swap(sub_params) *)
Definition swap (a : afn) : afn := mk_afn (a_subs a) (a_params a) (a_consts a) (a_strs a) (a_gen a) (a_calls a).
Definition is_expr (p : cparam) : bool := match p with CExpr _ _ => true | _ => false end.
(** The parameter_push_back_* functions 63-245; [n] is the static nb_data_tmps *)
Definition push_scalar (a : afn) (n : nat) (p : sparam) : option (afn * nat) :=
  match p with
  | SC z => Some (mk_afn (a_params a ++ [CConst (length (a_consts a))]) (a_subs a) (a_consts a ++ [z]) (a_strs a) (a_gen a) (a_calls a), n)
  | SD i => Some (add_param a (CData i), n)
  | SF h f => Some (add_param a (CField h f), n)
  | SX j =>
      x <- compile false j ;;
      let nb := 1 + length (filter is_expr (a_params a)) in
      if nb <=? n then Some (add_param a (CExpr nb x), if nb =? n then n + 1 else n) else None
  | SRG r j => x <- compile false j ;; Some (add_param a (CRegGen r x), n)
  | SR r i => Some (add_param a (CReg r i), n)
  | SSF k f => Some (add_param a (CStackField k f), n)
  end.
Fixpoint push_scalars (a : afn) (n : nat) (l : list sparam) : option (afn * nat) :=
  match l with [] => Some (a, n) | p :: r => q <- push_scalar a n p ;; push_scalars (fst q) (snd q) r end.
(** The pointers of the string parameters already in params are set again 260-261, [k] the next string *)
Fixpoint restring (gen k : nat) (l : list cparam) : list cparam * nat :=
  match l with
  | [] => ([], k)
  | CStr _ _ :: r => let q := restring gen (S k) r in (CStr gen k :: fst q, snd q)
  | p :: r => let q := restring gen k r in (p :: fst q, snd q)
  end.
(** parameter_push_back_string 255-267; pushing moves all the strings *)
Definition push_string (a : afn) (s : nat) : option afn :=
  let gen := S (a_gen a) in
  let q := restring gen 0 (a_params a) in
  if snd q =? length (a_strs a)
  then Some (mk_afn (fst q ++ [CStr gen (length (a_strs a))]) (a_subs a) (a_consts a) (a_strs a ++ [s]) gen (a_calls a)) else None.
(** parameter_end_vector, parameter_end_field_list: the last parameter gets its end *)
Fixpoint set_end (l : list cparam) (e : nat) : option (list cparam) :=
  match l with
  | [] => None
  | [CVec s _] => Some [CVec s e]
  | [CFL s _] => Some [CFL s e]
  | p :: r => match r with [] => None | _ => r' <- set_end r e ;; Some (p :: r') end
  end.
Definition end_vector (a : afn) : option afn := let a' := swap a in l <- set_end (a_params a') (length (a_subs a')) ;; Some (set_params a' l).
(** P4Objects::process_single_param 319-450 *)
Definition push_param (a : afn) (n : nat) (p : jparam) : option (afn * nat) :=
  match p with
  | JS p => push_scalar a n p
  | JO o => Some (add_param a (CObj o), n)
  | JHX j => x <- compile false j ;; Some (add_param a (CHX x), n)
  | JStr s => a' <- push_string a s ;; Some (a', n)
  | JV l =>
      q <- push_scalars (swap (add_param a (CVec (length (a_subs a)) (length (a_subs a))))) n l ;;
      a' <- end_vector (fst q) ;; Some (a', snd q)
  | JFL l =>
      q <- push_scalars (swap (add_param a (CFL (length (a_subs a)) (length (a_subs a))))) n (map (fun hf => SF (fst hf) (snd hf)) l) ;;
      a' <- end_vector (fst q) ;; Some (a', snd q)
  end.
Fixpoint push_params (a : afn) (n : nat) (l : list jparam) : option (afn * nat) :=
  match l with [] => Some (a, n) | p :: r => q <- push_param a n p ;; push_params (fst q) (snd q) r end.
(** ActionFn::push_back_primitive 313-321 *)
Definition push_prim (a : afn) (p : prim) : afn :=
  let off := match rev (a_calls a) with [] => 0 | (q, o) :: _ => o + arity q end in
  mk_afn (a_params a) (a_subs a) (a_consts a) (a_strs a) (a_gen a) (a_calls a ++ [(p, off)]).
(** P4Objects::add_primitive_to_action 287-315: a wrong number of parameters is refused *)
Definition add_prim (a : afn) (n : nat) (c : prim * list jparam) : option (afn * nat) :=
  if length (snd c) =? arity (fst c) then push_params (push_prim a (fst c)) n (snd c) else None.
Fixpoint add_prims (a : afn) (n : nat) (l : list (prim * list jparam)) : option (afn * nat) :=
  match l with [] => Some (a, n) | c :: r => q <- add_prim a n c ;; add_prims (fst q) (snd q) r end.

(** ** Arguments: ActionParam::to actions.h 280-564 *)
(** data_temps 306-307: the vector's storage (renewed when it grows beyond its capacity), capacity, contents *)
Record dtemps := mk_dt { dt_gen : nat; dt_cap : nat; dt : list Z }.
Fixpoint grow (fuel : nat) (t : dtemps) (off : nat) : dtemps :=
  match fuel with
  | O => t
  | S k =>
      if length (dt t) <=? off
      then grow k (if length (dt t) =? dt_cap t then mk_dt (S (dt_gen t)) (2 * dt_cap t) (dt t ++ [0%Z]) else mk_dt (dt_gen t) (dt_cap t) (dt t ++ [0%Z])) off
      else t
  end.
Inductive ref := RVal (z : Z) | RLoc (p : dptr) | RTemp (gen i : nat) | RSeen (s : seen).
Definition last_field (E : env) (k f : nat) : option dptr := h <- e_last E k ;; _ <- e_field E h f ;; Some (PField h f).
Definition reg_at (E : env) (a : nat) (i : Z) : option dptr := _ <- e_reg E a i ;; Some (PReg a i).
Definition field_at (E : env) (h f : nat) : option dptr := _ <- e_field E h f ;; Some (PField h f).
(** to<const Data &> 304-340; REGISTER_GEN uses data_temps[0] *)
Definition to_const (E : env) (old : list Z) (ad : list Z) (fn : afn) (t : dtemps) (p : cparam) : option (ref * dtemps) :=
  match p with
  | CConst off => z <- nth_error (a_consts fn) off ;; Some (RVal z, t)
  | CField h f => q <- field_at E h f ;; Some (RLoc q, t)
  | CData i => z <- nth_error ad i ;; Some (RVal z, t)
  | CReg a i => q <- reg_at E a (Z.of_nat i) ;; Some (RLoc q, t)
  | CRegGen a x =>
      z <- eval_arith E x old ;;
      let t' := mk_dt (dt_gen t) (dt_cap t) (list_set (dt t) 0 z) in
      i <- get_size z ;; q <- reg_at E a i ;; Some (RLoc q, t')
  | CExpr off x =>
      let t' := grow (S off) t off in
      z <- eval_arith E x old ;;
      Some (RTemp (dt_gen t') off, mk_dt (dt_gen t') (dt_cap t') (list_set (dt t') off z))
  | CStackField k f => q <- last_field E k f ;; Some (RLoc q, t)
  | _ => None
  end.
(** A reference is read; through a dangling one this is undefined *)
Definition read (t : dtemps) (r : ref) : option seen :=
  match r with
  | RVal z => Some (SeeVal z)
  | RLoc p => Some (SeeLoc p)
  | RSeen s => Some s
  | RTemp g i => if g =? dt_gen t then z <- nth_error (dt t) i ;; Some (SeeVal z) else None
  end.
(** to<const std::vector<Data>> 533-546: each element is copied as soon as it is evaluated *)
Fixpoint to_vec (E : env) (old ad : list Z) (fn : afn) (t : dtemps) (l : list cparam) : option (list seen * dtemps) :=
  match l with
  | [] => Some ([], t)
  | p :: r =>
      q <- to_const E old ad fn t p ;;
      s <- read (snd q) (fst q) ;;
      q' <- to_vec E old ad fn (snd q) r ;;
      Some (s :: fst q', snd q')
  end.
(** A copy of the value of a location *)
Definition copy (E : env) (s : seen) : option seen :=
  match s with SeeLoc p => z <- deref E [] [] p ;; Some (SeeVal z) | SeeVal z => Some (SeeVal z) | _ => None end.
Fixpoint copies (E : env) (l : list seen) : option (list seen) := match l with [] => Some [] | s :: r => x <- copy E s ;; y <- copies E r ;; Some (x :: y) end.
(** to<const std::vector<Field>> 550-563; that the fields are there is not checked *)
Fixpoint to_fields (l : list cparam) : option (list (nat * nat)) :=
  match l with [] => Some [] | CField h f :: r => x <- to_fields r ;; Some ((h, f) :: x) | _ => None end.
Definition slice {A} (l : list A) (s e : nat) : option (list A) := if (s <=? e) && (e <=? length l) then Some (firstn (e - s) (skipn s l)) else None.
Definition to_arg (E : env) (old ad : list Z) (fn : afn) (t : dtemps) (m : mode) (p : cparam) : option (ref * dtemps) :=
  match m, p with
  | MConst, _ => to_const E old ad fn t p
  (* to<Data &> 280-301 *)
  | MRef, CField h f => q <- field_at E h f ;; Some (RLoc q, t)
  | MRef, CReg a i => q <- reg_at E a (Z.of_nat i) ;; Some (RLoc q, t)
  | MRef, CRegGen a x => z <- eval_arith E x old ;; i <- get_size z ;; q <- reg_at E a i ;; Some (RLoc q, t)
  | MRef, CExpr _ x => q <- eval_lvalue E x old ;; Some (RLoc q, t)
  | MRef, CStackField k f => q <- last_field E k f ;; Some (RLoc q, t)
  | MObj, CObj o => Some (RSeen (SeeObj o), t)
  | MHdr, CObj o => Some (RSeen (SeeHdr o), t)
  | MHdr, CHX x => h <- eval_header E x old ;; Some (RSeen (SeeHdr h), t)
  | MStr, CStr gen i => if gen =? a_gen fn then s <- nth_error (a_strs fn) i ;; Some (RSeen (SeeStr s), t) else None
  | MVec, CVec s e => l <- slice (a_subs fn) s e ;; q <- to_vec E old ad fn t l ;; c <- copies E (fst q) ;; Some (RSeen (SeeVec c), snd q)
  | MFL, CFL s e => l <- slice (a_subs fn) s e ;; x <- to_fields l ;; Some (RSeen (SeeFL x), t)
  | _, _ => None
  end.
(** The arguments of a call actions.h 588-600, evaluated from the last to the first, or from the first to the last: C++ leaves the order to the compiler *)
Fixpoint args_rtl (E : env) (old ad : list Z) (fn : afn) (t : dtemps) (ms : list mode) (ps : list cparam) : option (list ref * dtemps) :=
  match ms, ps with
  | [], _ => Some ([], t)
  | m :: ms, p :: ps => q <- args_rtl E old ad fn t ms ps ;; r <- to_arg E old ad fn (snd q) m p ;; Some (fst r :: fst q, snd r)
  | _ :: _, [] => None
  end.
Fixpoint args_ltr (E : env) (old ad : list Z) (fn : afn) (t : dtemps) (ms : list mode) (ps : list cparam) : option (list ref * dtemps) :=
  match ms, ps with
  | [], _ => Some ([], t)
  | m :: ms, p :: ps => r <- to_arg E old ad fn t m p ;; q <- args_ltr E old ad fn (snd r) ms ps ;; Some (fst r :: fst q, snd q)
  | _ :: _, [] => None
  end.
Fixpoint reads (t : dtemps) (l : list ref) : option (list seen) := match l with [] => Some [] | r :: l => x <- read t r ;; y <- reads t l ;; Some (x :: y) end.
Definition args (ltr : bool) (E : env) (old ad : list Z) (fn : afn) (t : dtemps) (ms : list mode) (ps : list cparam) : option (list seen * dtemps) :=
  q <- (if ltr then args_ltr else args_rtl) E old ad fn t ms ps ;; l <- reads (snd q) (fst q) ;; Some (l, snd q).

(** ** Execution *)
(** The world: packet, registers and everything else; [p_sem]: the primitives; [p_env]: what expressions see (with the action data); [p_int]: Data::get<int> *)
Record world := mk_world { w_t : Type; p_sem : nat -> list seen -> w_t -> option w_t; p_env : list Z -> w_t -> env; p_int : Z -> Z; w_exit : w_t -> bool }.
Definition value_of (E : env) (s : seen) : option Z := match s with SeeVal z => Some z | SeeLoc p => deref E [] [] p | _ => None end.
(** ActionPrimitiveCall::execute and get_jump_offset; _jump_if_zero 495-511, _jump 513-527: the offset is a thread-local set by the call just made.
    A negative offset of _jump is a huge size_t. *)
Definition run_prim (W : world) (E : env) (p : prim) (l : list seen) (idx : nat) (w : w_t W) : option (w_t W * option nat) :=
  match p, l with
  | PJump, [o] => z <- value_of E o ;; let off := p_int W z in Some (w, if (off <? 0)%Z then None else Some (Z.to_nat off))
  | PJumpIfZero, [c; o] =>
      z <- value_of E c ;;
      if (p_int W z =? 0)%Z then y <- value_of E o ;; let off := p_int W y in Some (w, Some (if (off <? 0)%Z then S idx else Z.to_nat off))
      else Some (w, Some (S idx))
  | POther id _, _ => w' <- p_sem W id l w ;; Some (w', Some (S idx))
  | _, _ => None
  end.
Inductive result (A : Type) := Done (a : A) | Wrong | OutOfFuel.
Arguments Done {A}. Arguments Wrong {A}. Arguments OutOfFuel {A}.
(** ActionFnEntry::execute 403-421; [fuel] bounds the number of primitives executed *)
Fixpoint exec_fn (W : world) (ltr : bool) (old ad : list Z) (fn : afn) (fuel idx : nat) (t : dtemps) (w : w_t W) : result (w_t W * dtemps) :=
  match nth_error (a_calls fn) idx with
  | None => Done (w, t)
  | Some (p, off) =>
      match fuel with
      | O => OutOfFuel
      | S k =>
          match args ltr (p_env W ad w) old ad fn t (sig p) (skipn off (a_params fn)) with
          | None => Wrong
          | Some (l, t') =>
              match run_prim W (p_env W ad w) p l idx w with
              | None => Wrong
              | Some (w', Some idx') => exec_fn W ltr old ad fn k idx' t' w'
              | Some (w', None) => Done (w', t')
              end
          end
      end
  end.

(** ** Pipelines *)
(** The nodes of a pipeline graph: a conditional (conditionals.cpp 21-47), a control action, a table, which applies something to the world and chooses the next node (C10) *)
Inductive node (W : world) := NCond (x : built) (t f : option nat) | NAction (fn : afn) (next : option nat) | NTable (ap : w_t W -> option (w_t W * option nat)).
Arguments NCond {W}. Arguments NAction {W}. Arguments NTable {W}.
(** Operator() of a node; the action of a control action has no action data (control_action.cpp 37-45) *)
Definition run_node (W : world) (ltr : bool) (old : list Z) (fuel : nat) (t : dtemps) (n : node W) (w : w_t W) : result (w_t W * dtemps * option nat) :=
  match n with
  | NCond x nt nf => match eval_bool (p_env W [] w) x old with Some b => Done (w, t, if b then nt else nf) | None => Wrong end
  | NAction fn next => match exec_fn W ltr old [] fn fuel 0 t w with Done (w', t') => Done (w', t', next) | Wrong => Wrong | OutOfFuel => OutOfFuel end
  | NTable ap => match ap w with Some (w', next) => Done (w', t, next) | None => Wrong end
  end.
(** Pipeline::apply 20-41; [fuel] bounds the number of nodes; also returned: the nodes executed *)
Fixpoint apply (W : world) (ltr : bool) (old : list Z) (g : list (node W)) (fuel : nat) (t : dtemps) (cur : option nat) (w : w_t W) : result (w_t W * dtemps * list nat) :=
  match cur with
  | None => Done (w, t, [])
  | Some n =>
      if w_exit W w then Done (w, t, [])
      else
        match fuel, nth_error g n with
        | O, _ => OutOfFuel
        | S k, None => Wrong
        | S k, Some nd =>
            match run_node W ltr old fuel t nd w with
            | Done (w', t', nx) => match apply W ltr old g k t' nx w' with Done (w'', t'', l) => Done (w'', t'', n :: l) | Wrong => Wrong | OutOfFuel => OutOfFuel end
            | Wrong => Wrong
            | OutOfFuel => OutOfFuel
            end
        end
  end.
