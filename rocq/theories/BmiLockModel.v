(** Model of the locking between the receiving thread and the calls of the BMI port manager, src/BMI/bmi_port.c.

    Threads take steps in any order.  A port is its number and the descriptor of its interface.  Where nothing can be
    seen in between, taking the lock, the work and releasing the lock are one step (add, the copy of the fd_set); a
    failed remove and a failed add also.  The rwlock is modelled by its contract (readers together, a writer alone, no
    fairness).  Sending and the statistics are a thread that holds the lock for reading.  [None]: the step is not
    enabled.  Not modelled: termination of the receiving thread, packets themselves. *)
From Coq Require Import List Arith NArith Bool.
Import ListNotations.

(** what the receiving thread is about to do, run_select, 101-175 *)
Inductive tpc :=
| TNone                                      (* not started: bmi_start_mgr, 177-179 *)
| TTop                                       (* 117: take the lock to copy the fd_set *)
| TSelect (fds : list N) (maxfd : N)         (* 122: in select *)
| TReady (ready : list N)                    (* 128: look at the socket *)
| TEcho (ready : list N)                     (* 131: answer *)
| TWant (ready : list N)                     (* 139: take the lock to receive *)
| THold (todo : list (N * N)) (ready : list N)         (* 149-171: ports not looked at yet *)
| TDeliver (p : N) (todo : list (N * N)) (ready : list N).   (* 159: in the packet handler *)

(** what a calling thread is about to do *)
Inductive rpc :=
| CIdle
| CWantRemove (p : N)                        (* 329: take the lock for writing *)
| CWrite (p fd : N)                          (* 313-314: write to the socket *)
| CRead (p fd : N)                           (* 315: wait for the answer *)
| CClose (p fd : N)                          (* 317-322, 331: destroy the interface, delete the port, release the lock *)
| CWantAdd (p fd : N)                        (* 296 *)
| CWantRead                                  (* 232, 399, 419: take the lock for reading *)
| CReading.

Inductive levent :=
| EAdded (p fd : N)
| ERemoved (p : N)                           (* a remove returns with success *)
| EClosed (fd : N)                           (* the descriptor is closed *)
| EBegin (p fd : N) | EEnd (p : N)           (* the packet handler is called for a port, and returns *)
| ESelect (fds : list N) | ESelected (ready : list N)  (* select is called, and returns *)
| EReturned (t : nat).                       (* a call returns *)

Record lst := mkL {
  l_ports : list (N * N);
  l_fds : list N;                            (* fds *)
  l_maxfd : N;                               (* max_fd *)
  l_writer : option nat;                     (* the rwlock *)
  l_readers : nat;
  l_to : nat;                                (* bytes on their way to the receiving thread *)
  l_back : nat;                              (* answers on their way back *)
  l_sel : tpc;
  l_call : nat -> rpc;
  l_log : list levent }.
(** bmi_port_create_mgr, 181-218; [sock] is socketpairfd[1] *)
Definition l_new (sock : N) : lst := mkL [] [sock] 0 None 0 0 0 TNone (fun _ => CIdle) [].

Inductive lcall := KRemove (p : N) | KAdd (p fd : N) | KRead.
Inductive laction :=
| LCall (t : nat) (c : lcall)                (* an idle thread makes a call *)
| LStep (t : nat)                            (* a calling thread goes on *)
| LStart                                     (* bmi_start_mgr *)
| LSelected (ready : list N)                 (* select returns *)
| LSel.                                      (* the receiving thread goes on *)

Definition upd {A} (f : nat -> A) (t : nat) (x : A) : nat -> A := fun u => if u =? t then x else f u.
Definition memb (l : list N) (x : N) : bool := existsb (N.eqb x) l.
Definition without (l : list N) (x : N) : list N := filter (fun y => negb (y =? x)%N) l.
Fixpoint fd_of (l : list (N * N)) (p : N) : option N :=
  match l with [] => None | (q, fd) :: r => if (q =? p)%N then Some fd else fd_of r p end.

Definition set_call (s : lst) (t : nat) (c : rpc) : lst :=
  mkL (l_ports s) (l_fds s) (l_maxfd s) (l_writer s) (l_readers s) (l_to s) (l_back s) (l_sel s) (upd (l_call s) t c) (l_log s).
Definition set_sel (s : lst) (pc : tpc) (ev : list levent) : lst :=
  mkL (l_ports s) (l_fds s) (l_maxfd s) (l_writer s) (l_readers s) (l_to s) (l_back s) pc (l_call s) (l_log s ++ ev).
Definition lock_free (s : lst) : bool := match l_writer s with None => l_readers s =? 0 | Some _ => false end.
Definition read_free (s : lst) : bool := match l_writer s with None => true | Some _ => false end.

(** after the socket, 132-137: [continue] when nothing is left *)
Definition after_socket (ready : list N) : tpc := match ready with [] => TTop | _ => TWant ready end.

Definition l_step (sock : N) (s : lst) (a : laction) : option lst :=
  match a with
  | LCall t c =>
      match l_call s t with
      | CIdle => Some (set_call s t (match c with KRemove p => CWantRemove p | KAdd p fd => CWantAdd p fd | KRead => CWantRead end))
      | _ => None
      end
  | LStep t =>
      match l_call s t with
      | CIdle => None
      | CWantRemove p =>
          if lock_free s then
            match fd_of (l_ports s) p with
            | None => Some (mkL (l_ports s) (l_fds s) (l_maxfd s) None 0 (l_to s) (l_back s) (l_sel s) (upd (l_call s) t CIdle) (l_log s ++ [EReturned t]))
            | Some fd => Some (mkL (l_ports s) (without (l_fds s) fd) (l_maxfd s) (Some t) 0 (l_to s) (l_back s) (l_sel s) (upd (l_call s) t (CWrite p fd)) (l_log s))
            end
          else None
      | CWrite p fd => Some (mkL (l_ports s) (l_fds s) (l_maxfd s) (l_writer s) (l_readers s) (S (l_to s)) (l_back s) (l_sel s) (upd (l_call s) t (CRead p fd)) (l_log s))
      | CRead p fd =>
          match l_back s with
          | O => None
          | S k => Some (mkL (l_ports s) (l_fds s) (l_maxfd s) (l_writer s) (l_readers s) (l_to s) k (l_sel s) (upd (l_call s) t (CClose p fd)) (l_log s))
          end
      | CClose p fd =>
          Some (mkL (filter (fun x => negb (fst x =? p)%N) (l_ports s)) (l_fds s) (l_maxfd s) None (l_readers s) (l_to s) (l_back s) (l_sel s) (upd (l_call s) t CIdle)
                  (l_log s ++ [EClosed fd; ERemoved p; EReturned t]))
      | CWantAdd p fd =>
          if lock_free s then
            match fd_of (l_ports s) p with
            | Some _ => Some (mkL (l_ports s) (l_fds s) (l_maxfd s) None 0 (l_to s) (l_back s) (l_sel s) (upd (l_call s) t CIdle) (l_log s ++ [EReturned t]))
            | None => Some (mkL (l_ports s ++ [(p, fd)]) (fd :: l_fds s) (N.max (l_maxfd s) fd) None 0 (l_to s) (l_back s) (l_sel s) (upd (l_call s) t CIdle) (l_log s ++ [EAdded p fd; EReturned t]))
            end
          else None
      | CWantRead =>
          if read_free s then Some (mkL (l_ports s) (l_fds s) (l_maxfd s) None (S (l_readers s)) (l_to s) (l_back s) (l_sel s) (upd (l_call s) t CReading) (l_log s)) else None
      | CReading =>
          Some (mkL (l_ports s) (l_fds s) (l_maxfd s) (l_writer s) (l_readers s - 1) (l_to s) (l_back s) (l_sel s) (upd (l_call s) t CIdle) (l_log s ++ [EReturned t]))
      end
  | LStart => match l_sel s with TNone => Some (set_sel s TTop []) | _ => None end
  | LSelected ready =>
      match l_sel s with
      | TSelect fds maxfd =>
          (* select's contract: only descriptors it was given, up to the highest; the socket when, and only when, it can be read *)
          if forallb (fun fd => memb fds fd && (fd <=? maxfd)%N) ready
             && Bool.eqb (memb ready sock) (memb fds sock && (sock <=? maxfd)%N && negb (l_to s =? 0))
          then Some (set_sel s (TReady ready) [ESelected ready]) else None
      | _ => None
      end
  | LSel =>
      match l_sel s with
      | TNone | TSelect _ _ => None
      | TTop => if read_free s then Some (set_sel s (TSelect (l_fds s) (l_maxfd s)) [ESelect (l_fds s)]) else None
      | TReady ready =>
          if memb ready sock then
            match l_to s with
            | O => None
            | S k => Some (mkL (l_ports s) (l_fds s) (l_maxfd s) (l_writer s) (l_readers s) k (l_back s) (TEcho (without ready sock)) (l_call s) (l_log s))
            end
          else Some (set_sel s (after_socket ready) [])
      | TEcho ready =>
          Some (mkL (l_ports s) (l_fds s) (l_maxfd s) (l_writer s) (l_readers s) (l_to s) (S (l_back s)) (after_socket ready) (l_call s) (l_log s))
      | TWant ready =>
          if read_free s then Some (mkL (l_ports s) (l_fds s) (l_maxfd s) None (S (l_readers s)) (l_to s) (l_back s) (THold (l_ports s) ready) (l_call s) (l_log s)) else None
      | THold [] _ => Some (mkL (l_ports s) (l_fds s) (l_maxfd s) (l_writer s) (l_readers s - 1) (l_to s) (l_back s) TTop (l_call s) (l_log s))
      | THold ((p, fd) :: todo) ready =>
          if memb ready fd then Some (set_sel s (TDeliver p todo ready) [EBegin p fd]) else Some (set_sel s (THold todo ready) [])
      | TDeliver p todo ready => Some (set_sel s (THold todo ready) [EEnd p])
      end
  end.
Fixpoint l_run (sock : N) (s : lst) (acts : list laction) : option lst :=
  match acts with [] => Some s | a :: r => match l_step sock s a with Some s' => l_run sock s' r | None => None end end.
