(** Model of counters (include/bm/bm_sim/counters.h:40-145, src/bm_sim/counters.cpp) at the
    granularity of single atomic operations.  Every call is a list of atomic operations on 64-bit
    cells; threads are interleaved arbitrarily.  [std::atomic] operations are sequentially consistent
    (the default memory order is used).  Counters are named by their index; indices out of range (which
    the callers check) do not occur. *)
From Coq Require Import List Arith NArith Bool.
From Verif Require Import Base.
Import ListNotations.

(** A cell: counter index, and [true] for its byte count, [false] for its packet count. *)
Definition cell := (nat * bool)%type.
Inductive micro := MAdd (a : cell) (n : N) | MSet (a : cell) (v : N) | MGet (a : cell).

(** Calls: increment_counter (counters.h:58-61), query_counter, reset_counter, write_counter
    (counters.cpp:25-47), CounterArray::reset_counters of an array of [n] counters (63-68). *)
Inductive call :=
| CInc (i : nat) (len : N)
| CQuery (i : nat)
| CReset (i : nat)
| CWrite (i : nat) (b p : N)
| CResetAll (n : nat).

Definition prog (c : call) : list micro :=
  match c with
  | CInc i len => [MAdd (i, true) len; MAdd (i, false) 1]
  | CQuery i => [MGet (i, true); MGet (i, false)]
  | CReset i => [MSet (i, true) 0; MSet (i, false) 0]
  | CWrite i b p => [MSet (i, true) b; MSet (i, false) p]
  | CResetAll n => flat_map (fun i => [MSet (i, true) 0; MSet (i, false) 0]) (seq 0 n)
  end.

(** One call in progress: not started, running with the operations left and the values read, or
    finished. *)
Inductive thread := TIdle | TRun (rest : list micro) (got : list N) | TDone (got : list N).
(** What the callers observe: call [i] starts; call [i] returns these values. *)
Inductive event := EInv (i : nat) | ERes (i : nat) (got : list N).

Record cstate := mkCS { cs_cells : cell -> N; cs_threads : list thread; cs_hist : list event }.

Definition cell_eqb (a b : cell) : bool := (fst a =? fst b) && Bool.eqb (snd a) (snd b).
Definition put (f : cell -> N) (a : cell) (v : N) : cell -> N := fun b => if cell_eqb b a then v else f b.

(** One atomic operation: [fetch_add], [store] or [load] of a [std::atomic<uint64_t>]. *)
Definition do_micro (f : cell -> N) (m : micro) (got : list N) : (cell -> N) * list N :=
  match m with
  | MAdd a n => (put f a ((f a + n) mod 2 ^ 64)%N, got)
  | MSet a v => (put f a v, got)
  | MGet a => (f, got ++ [f a])
  end.

(** The scheduler lets call [i] take one step. *)
Definition cstep (calls : list call) (st : cstate) (i : nat) : cstate :=
  match nth_error (cs_threads st) i, nth_error calls i with
  | Some TIdle, Some c =>
      mkCS (cs_cells st) (list_set (cs_threads st) i (TRun (prog c) [])) (cs_hist st ++ [EInv i])
  | Some (TRun (m :: rest) got), _ =>
      let '(f, got') := do_micro (cs_cells st) m got in
      mkCS f (list_set (cs_threads st) i (TRun rest got')) (cs_hist st)
  | Some (TRun [] got), _ =>
      mkCS (cs_cells st) (list_set (cs_threads st) i (TDone got)) (cs_hist st ++ [ERes i got])
  | _, _ => st
  end.
Definition cinit (calls : list call) : cstate := mkCS (fun _ => 0%N) (repeat TIdle (length calls)) [].
Definition crun (calls : list call) (sched : list nat) : cstate :=
  fold_left (cstep calls) sched (cinit calls).
