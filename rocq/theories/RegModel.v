(** Model of register arrays (src/bm_sim/stateful.cpp, include/bm/bm_sim/stateful.h), of their runtime interface (src/bm_sim/context.cpp 594-656),
    of the register arrays an action, a parse state or a deparser locks, and of what threads do while they hold these locks.

    Not modelled: names (an array is its position); an array of more than 2^64 registers.  A failed assertion or an exception is [None]. *)
From Coq Require Import List Arith NArith ZArith Bool.
From Verif Require Import Base DataModel PhvModel ExprModel ActionModel.
Import ListNotations.

(** ** Values *)
(** RegisterArray: bitwidth and the values of the registers *)
Record rarr := mk_ra { ra_w : nat; ra_v : list Z }.
(** Constructor 31-37, Register 20-23: a Data is 0 at first *)
Definition ra_new (w n : nat) : rarr := mk_ra w (repeat 0%Z n).
(** Register::export_bytes 25-30 (called at the end of each function of Data that writes): the value is masked.  The notifiers are told the index. *)
Definition ra_store (r : rarr) (i : nat) (v : Z) : rarr := mk_ra (ra_w r) (list_set (ra_v r) i (Z.land v (Z.shiftl 1 (Z.of_nat (ra_w r)) - 1))).
Fixpoint ra_range (r : rarr) (i n : nat) (v : Z) : rarr := match n with O => r | S n => ra_range (ra_store r i v) (S i) n v end.

(** Calls: reads and writes of the runtime interface; a primitive that writes a register with Data::set or with an operation of Data *)
Inductive rcall := RRead (a i : nat) | RReadAll (a : nat) | RWrite (a i : nat) (v : Z) | RRange (a s e : nat) (v : Z) | RReset (a : nat)
  | RSet (a i : nat) (v : Z) | ROp (a i : nat) (o : dop) (x y : Z).
Inductive rcode := ROk | RBadName | RBadIndex.
(** Result code, values read, indices notified *)
Definition rres : Type := rcode * list Z * list nat.
Definition r_step (R : list rarr) (c : rcall) : option (list rarr * rres) :=
  match c with
  | RRead a i =>                                                             (* register_read 594-606 *)
      match nth_error R a with
      | None => Some (R, (RBadName, [], []))
      | Some r => if length (ra_v r) <=? i then Some (R, (RBadIndex, [], [])) else v <- nth_error (ra_v r) i ;; Some (R, (ROk, [v], []))
      end
  | RReadAll a =>                                                            (* register_read_all 608-617: no result code *)
      match nth_error R a with None => Some (R, (ROk, [], [])) | Some r => Some (R, (ROk, ra_v r, [])) end
  | RWrite a i v =>                                                          (* register_write 619-630 *)
      match nth_error R a with
      | None => Some (R, (RBadName, [], []))
      | Some r => if length (ra_v r) <=? i then Some (R, (RBadIndex, [], [])) else Some (list_set R a (ra_store r i v), (ROk, [], [i]))
      end
  | RRange a s e v =>                                                        (* register_write_range 632-646 *)
      match nth_error R a with
      | None => Some (R, (RBadName, [], []))
      | Some r => if (length (ra_v r) <? e) || (e <? s) then Some (R, (RBadIndex, [], []))
                  else Some (list_set R a (ra_range r s (e - s) v), (ROk, [], seq s (e - s)))
      end
  | RReset a =>                                                              (* register_reset 648-656, reset_state 39-52 *)
      match nth_error R a with None => Some (R, (RBadName, [], [])) | Some r => Some (list_set R a (ra_new (ra_w r) (length (ra_v r))), (ROk, [], [])) end
  | RSet a i v =>                                                            (* RegisterArray::operator[], at; Data::set *)
      r <- nth_error R a ;; if i <? length (ra_v r) then Some (list_set R a (ra_store r i v), (ROk, [], [i])) else None
  | ROp a i o x y =>
      r <- nth_error R a ;; v <- d_op o x y ;; if i <? length (ra_v r) then Some (list_set R a (ra_store r i v), (ROk, [], [i])) else None
  end.
Fixpoint r_run (R : list rarr) (l : list rcall) : option (list rarr * list rres) :=
  match l with [] => Some (R, []) | c :: l => q <- r_step R c ;; q' <- r_run (fst q) l ;; Some (fst q', snd q :: snd q') end.

(** ** The arrays locked *)
(** RegisterSync::mutexes; register_arrays has the same elements *)
Definition sync : Type := list nat.
(** add_register_array 65-69 *)
Definition sync_add (s : sync) (a : nat) : sync := if existsb (Nat.eqb a) s then s else s ++ [a].
(** merge_from 71-75; the order is unspecified, here that of mutexes *)
Definition sync_merge (s o : sync) : sync := fold_left sync_add o s.
(** Expression::grab_register_accesses (expressions.cpp 378-390) *)
Definition grab_op (s : sync) (o : eop) : sync := match o with LoadRegRef a _ => sync_add s a | LoadRegGen a => sync_add s a | _ => s end.
Definition grab (s : sync) (x : built) : sync := fold_left grab_op (fst (fst x)) s.
(** The parameter_push_back_* functions of ActionFn (actions.cpp 63-267), as called by P4Objects::process_single_param: their effect on register_sync.
    [ro]: which object parameters are register arrays *)
Definition sync_scalar (s : sync) (p : sparam) : option sync :=
  match p with
  | SX j => x <- compile false j ;; Some (grab s x)                            (* 199-214 *)
  | SRG a j => x <- compile false j ;; Some (sync_add (grab s x) a)            (* 143-159 *)
  | SR a _ => Some (sync_add s a)                                             (* 131-141 *)
  | _ => Some s
  end.
Fixpoint sync_scalars (s : sync) (l : list sparam) : option sync := match l with [] => Some s | p :: r => s' <- sync_scalar s p ;; sync_scalars s' r end.
Definition sync_param (ro : nat -> option nat) (s : sync) (p : jparam) : option sync :=
  match p with
  | JS p => sync_scalar s p
  | JO o => Some (match ro o with Some a => sync_add s a | None => s end)     (* 185-193 *)
  | JHX j => _ <- compile false j ;; Some s                                   (* 216-245 *)
  | JV l => sync_scalars s l
  | JStr _ | JFL _ => Some s
  end.
Fixpoint sync_params (ro : nat -> option nat) (s : sync) (l : list jparam) : option sync := match l with [] => Some s | p :: r => s' <- sync_param ro s p ;; sync_params ro s' r end.
Fixpoint sync_prims (ro : nat -> option nat) (s : sync) (l : list (prim * list jparam)) : option sync :=
  match l with [] => Some s | c :: r => s' <- sync_params ro s (snd c) ;; sync_prims ro s' r end.
(** ActionFnEntry::operator() 424-443 locks register_sync; a conditional (conditionals.cpp 20-45) locks nothing *)
Definition action_locks (ro : nat -> option nat) (prog : list (prim * list jparam)) : option sync := sync_prims ro [] prog.
Definition condition_locks (j : jexp) : sync := [].
(** The operations of a parse state with an expression or an action (parser.cpp 933-967; extractions of variable length 860-909), and of a deparser
    (deparser.cpp 102-106; only method calls) *)
Inductive pop := PSetExpr (j : jexp) | PAdvanceExpr (j : jexp) | PVerify (c e : jexp) | PExtractVL (j : jexp) | PCall (prog : list (prim * list jparam)) | PPlain.
Definition pop_locks (ro : nat -> option nat) (s : sync) (o : pop) : option sync :=
  match o with
  | PSetExpr j => x <- compile false j ;; Some (grab s x)
  | PCall prog => l <- action_locks ro prog ;; Some (sync_merge s l)
  | _ => Some s
  end.
Fixpoint state_locks (ro : nat -> option nat) (s : sync) (l : list pop) : option sync := match l with [] => Some s | o :: r => s' <- pop_locks ro s o ;; state_locks ro s' r end.

(** ** Threads
    What an action, a parse state or a call of the runtime interface does to the registers between taking and releasing its locks: a program of reads and writes of
    single registers.  RegisterSync::lock (boost::lock) may take and release the mutexes in any order, and returns when it holds them all. *)
Inductive acts := Ret | Rd (a i : nat) (k : Z -> acts) | Wr (a i : nat) (v : Z) (k : acts).
Inductive thr := TIdle | TLocking (L : list nat) (p : acts) | TRunning (L : list nat) (p : acts) (log : list Z).
Record mem := mk_mem { m_own : nat -> option nat; m_val : nat -> nat -> Z; m_thr : nat -> thr }.
Definition upd {A} (f : nat -> A) (k : nat) (v : A) : nat -> A := fun j => if j =? k then v else f j.
Definition upd2 (f : nat -> nat -> Z) (a i : nat) (v : Z) : nat -> nat -> Z := fun b j => if (b =? a) && (j =? i) then v else f b j.
Definition owns (s : mem) (t a : nat) : bool := match m_own s a with Some u => u =? t | None => false end.
Definition release (s : mem) (t : nat) : nat -> option nat := fun a => if owns s t a then None else m_own s a.
(** [TReset]: RegisterArray::reset_state takes no lock: [auto lock = UniqueLock()] (50) is a lock without a mutex *)
Inductive tev := TCall (t : nat) (L : list nat) (p : acts) | TGrab (t a : nat) | TDrop (t a : nat) | TEnter (t : nat) | TAccess (t : nat) | TExit (t : nat) | TReset (a : nat).
Definition t_step (s : mem) (e : tev) : option (mem * option (nat * list Z)) :=
  match e with
  | TCall t L p => match m_thr s t with TIdle => Some (mk_mem (m_own s) (m_val s) (upd (m_thr s) t (TLocking L p)), None) | _ => None end
  | TGrab t a =>
      match m_thr s t, m_own s a with
      | TLocking L p, None => if existsb (Nat.eqb a) L then Some (mk_mem (upd (m_own s) a (Some t)) (m_val s) (m_thr s), None) else None
      | _, _ => None
      end
  | TDrop t a =>
      match m_thr s t with
      | TLocking L p => if owns s t a then Some (mk_mem (upd (m_own s) a None) (m_val s) (m_thr s), None) else None
      | _ => None
      end
  | TEnter t =>
      match m_thr s t with
      | TLocking L p => if forallb (owns s t) L then Some (mk_mem (m_own s) (m_val s) (upd (m_thr s) t (TRunning L p [])), None) else None
      | _ => None
      end
  | TAccess t =>
      match m_thr s t with
      | TRunning L (Rd a i k) log => Some (mk_mem (m_own s) (m_val s) (upd (m_thr s) t (TRunning L (k (m_val s a i)) (log ++ [m_val s a i]))), None)
      | TRunning L (Wr a i v k) log => Some (mk_mem (m_own s) (upd2 (m_val s) a i v) (upd (m_thr s) t (TRunning L k log)), None)
      | _ => None
      end
  | TExit t =>
      match m_thr s t with
      | TRunning L Ret log => Some (mk_mem (release s t) (m_val s) (upd (m_thr s) t TIdle), Some (t, log))
      | _ => None
      end
  | TReset a => Some (mk_mem (m_own s) (fun b i => if b =? a then 0%Z else m_val s b i) (m_thr s), None)
  end.
Fixpoint t_run (s : mem) (es : list tev) : option (mem * list (nat * list Z)) :=
  match es with
  | [] => Some (s, [])
  | e :: r => q <- t_step s e ;; q' <- t_run (fst q) r ;; Some (fst q', match snd q with Some x => x :: snd q' | None => snd q' end)
  end.
Definition m_start (v : nat -> nat -> Z) : mem := mk_mem (fun _ => None) v (fun _ => TIdle).
