(** Model of copy ids: CopyIdGenerator (src/bm_sim/packet.cpp 26-68, include/bm/bm_sim/packet.h 52-75) and its callers, the clone_* functions 138-200 and ~Packet 94-110.

    The functions loop on compare_exchange_weak.  An event is the initial load, or one iteration of the loop; any threads can be in the middle of a call.
    [W]: the number of counters (4096).  CopyIdGenerator::get and reset are not called by anything.
    [None]: an event that cannot happen (thread busy; a packet that does not exist or that another thread is using). *)
From Coq Require Import List Arith NArith Bool.
From Verif Require Import Base PhvModel.
Import ListNotations.
Local Open Scope N_scope.

(** Cntr, packet.h 55-62; both 16 bits *)
Record cntr := mk_c { c_max : N; c_num : N }.
Definition w16 (x : N) : N := x mod 65536.
Definition cntr_eqb (a b : cntr) : bool := (c_max a =? c_max b) && (c_num a =? c_num b).
(** Calls in progress: [old] is old_cntr, [new] is what new_cntr holds from the previous iteration *)
Inductive call := Adding (pid cid : N) (old : cntr) | Removing (pid cid : N) (old new : cntr).
Definition of_call (c : call) : N * N := match c with Adding p i _ => (p, i) | Removing p i _ _ => (p, i) end.
(** Counters, live packets (packet id, copy id), calls in progress *)
Record cst := mk_cs { s_arr : list cntr; s_live : list (N * N); s_calls : list (nat * call) }.
Definition pk_eqb (a b : N * N) : bool := (fst a =? fst b) && (snd a =? snd b).
Definition idx (W : N) (pid : N) : nat := N.to_nat (pid mod W).

Inductive cev := ENew (pid : N) | EClone (t : nat) (pid cid : N) | EDestroy (t : nat) (pid cid : N) | ETry (t : nat) (spurious : bool).
Definition find_call (l : list (nat * call)) (t : nat) : option call := option_map snd (find (fun x => Nat.eqb (fst x) t) l).
Definition drop_call (l : list (nat * call)) (t : nat) : list (nat * call) := filter (fun x => negb (Nat.eqb (fst x) t)) l.
Fixpoint drop_packet (l : list (N * N)) (x : N * N) : list (N * N) := match l with [] => [] | y :: r => if pk_eqb y x then r else y :: drop_packet r x end.
Definition usable (s : cst) (t : nat) (x : N * N) : bool :=
  existsb (pk_eqb x) (s_live s) && negb (existsb (fun c => Nat.eqb (fst c) t || pk_eqb x (of_call (snd c))) (s_calls s)).
(** The new value: add_one 31-32, remove_one 44-49 (new_cntr.num keeps its value in one branch) *)
Definition added (old : cntr) : cntr := mk_c (w16 (c_max old + 1)) (w16 (c_num old + 1)).
Definition removed (old new : cntr) : cntr := if c_num old =? 0 then mk_c 0 (c_num new) else mk_c (c_max old) (c_num old - 1).
Definition c_step (W : N) (s : cst) (e : cev) : option (cst * option (N * N)) :=
  match e with
  | ENew pid => Some (mk_cs (s_arr s) ((pid, 0) :: s_live s) (s_calls s), None)                          (* switch.cpp 533-551 *)
  | EClone t pid cid =>
      if usable s t (pid, cid) then old <- nth_error (s_arr s) (idx W pid) ;; Some (mk_cs (s_arr s) (s_live s) ((t, Adding pid cid old) :: s_calls s), None) else None
  | EDestroy t pid cid =>
      if usable s t (pid, cid) then old <- nth_error (s_arr s) (idx W pid) ;; Some (mk_cs (s_arr s) (s_live s) ((t, Removing pid cid old (mk_c 0 0)) :: s_calls s), None) else None
  | ETry t spurious =>
      c <- find_call (s_calls s) t ;;
      let pid := fst (of_call c) in
      cur <- nth_error (s_arr s) (idx W pid) ;;
      let rest := drop_call (s_calls s) t in
      match c with
      | Adding _ cid old =>
          let v := added old in
          if negb spurious && cntr_eqb cur old
          then Some (mk_cs (list_set (s_arr s) (idx W pid) v) ((pid, c_max v) :: s_live s) rest, Some (pid, c_max v))
          else Some (mk_cs (s_arr s) (s_live s) ((t, Adding pid cid cur) :: rest), None)
      | Removing _ cid old new =>
          let v := removed old new in
          if negb spurious && cntr_eqb cur old
          then Some (mk_cs (list_set (s_arr s) (idx W pid) v) (drop_packet (s_live s) (pid, cid)) rest, None)
          else Some (mk_cs (s_arr s) (s_live s) ((t, Removing pid cid cur v) :: rest), None)
      end
  end.
(** The state after a schedule and the copies made *)
Fixpoint c_run (W : N) (s : cst) (es : list cev) : option (cst * list (N * N)) :=
  match es with
  | [] => Some (s, [])
  | e :: r => q <- c_step W s e ;; q' <- c_run W (fst q) r ;; Some (fst q', match snd q with Some x => x :: snd q' | None => snd q' end)
  end.
Definition c_start (W : N) : cst := mk_cs (repeat (mk_c 0 0) (N.to_nat W)) [] [].

(** Calls that nobody interrupts *)
Inductive aev := ANew (pid : N) | AClone (pid cid : N) | ADestroy (pid cid : N).
Definition whole (a : aev) : list cev :=
  match a with ANew p => [ENew p] | AClone p i => [EClone 0 p i; ETry 0 false] | ADestroy p i => [EDestroy 0 p i; ETry 0 false] end.
