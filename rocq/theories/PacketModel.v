(** Model of the life of Packet objects: constructors, clones, moves, change_context and the
    accessors, src/bm_sim/packet.cpp:70-245 and include/bm/bm_sim/packet.h:95-400, with the pools of
    header vectors, src/bm_sim/phv_source.cpp:27-66.
    A program is a list of operations on variables holding packets (by value or by pointer).  A
    header vector is known by its address and by the context it was built for; its contents are the
    subject of PhvModel.v.  The bytes of a packet are a list, the room in its buffer a number (the
    buffer is modelled in PktBufModel.v); [sg] is the hash of the bytes, and the clock and the copy
    ids (CopyModel.v) are given with the operations.  Not modelled: save_buffer_state, the debugger
    and the trace context, concurrency (a pool's functions hold its mutex). *)
From Coq Require Import List Arith NArith Bool.
Import ListNotations.

(** The data members of Packet, packet.h:341-390; None for truncated_length and entry_index is
    the largest size_t, for an error code it is the invalid one, for a register: not initialised *)
Record att := mkAt {
  a_cxt : nat; a_port : N; a_eport : N; a_pid : N; a_cid : N; a_ilen : N; a_exit : bool; a_sig : N;
  a_data : list N; a_cap : nat; a_psize : nat; a_trunc : option nat; a_ts : N;
  a_regs : list (option N); a_eidx : option N; a_err : option N; a_cks : bool }.

Record var := mkVar { v_att : att; v_phv : option (nat * nat) (* address, context built for *) }.
Record pool := mkPool { free : list (nat * nat) (* last first *); count : N (* size_t *) }.
Record st := mkSt { vars : list (nat * var); pools : list pool; next : nat;
                    removed : list N (* calls of CopyIdGenerator::remove_one *) }.

Inductive set :=
| SEport (n : N) | SPort (n : N) | SCid (n : N) | SIlen (n : N) | SPsize (n : nat) | STrunc (n : nat)
| SReg (i : nat) (n : N) | SEidx (n : option N) | SErr (n : option N) | SCks (b : bool) | SExit | SResetExit
| SPrepend (bs : list N) | SRemove (n : nat).
Inductive op :=
| ONew (v c : nat) (port pid cid ilen : N) (bs : list N) (cap : nat) (now : N)
| ODel (v : nat)
| OClone (v w : nat) (cid now : N)                 (* clone_with_phv, ..._reset_metadata, clone_no_phv *)
| OCloneTo (v w c : nat) (cid now : N)             (* clone_choose_context *)
| OMove (v w : nat)                                (* Packet w(std::move(v)) *)
| OAssign (w v : nat)                              (* w = std::move(v) *)
| OCtx (v c : nat)                                 (* change_context *)
| OSet (v : nat) (s : set)
| OGet (v : nat).
(** What a packet shows: its members, and get_data_size *)
Inductive obs := Nothing | Shows (a : att) (size : nat).

Fixpoint look {A} (l : list (nat * A)) (k : nat) : option A :=
  match l with [] => None | (i, x) :: r => if i =? k then Some x else look r k end.
Definition drop {A} (l : list (nat * A)) (k : nat) : list (nat * A) := filter (fun x => negb (fst x =? k)) l.
Definition put {A} (l : list (nat * A)) (k : nat) (x : A) : list (nat * A) := (k, x) :: drop l k.
Fixpoint set_nth {A} (l : list A) (i : nat) (x : A) : list A :=
  match l, i with [], _ => [] | _ :: r, O => x :: r | y :: r, S j => y :: set_nth r j x end.

Section Packet.
Variable sg : list N -> N.

(** PHVPool::get, phv_source.cpp:36-46 *)
Definition get_phv (s : st) (c : nat) : option (st * (nat * nat)) :=
  match nth_error (pools s) c with
  | Some p =>
      let n := ((count p + 1) mod 2 ^ 64)%N in
      match free p with
      | [] => Some (mkSt (vars s) (set_nth (pools s) c (mkPool [] n)) (S (next s)) (removed s), (next s, c))
      | x :: r => Some (mkSt (vars s) (set_nth (pools s) c (mkPool r n)) (next s) (removed s), x)
      end
  | None => None                                  (* std::vector::at throws *)
  end.
(** PHVPool::release, 48-52 *)
Definition release (s : st) (c : nat) (x : nat * nat) : option st :=
  match nth_error (pools s) c with
  | Some p => Some (mkSt (vars s) (set_nth (pools s) c (mkPool (x :: free p) ((count p + (2 ^ 64 - 1)) mod 2 ^ 64)%N)) (next s) (removed s))
  | None => None
  end.
Definition with_var (s : st) (v : nat) (x : var) : st := mkSt (put (vars s) v x) (pools s) (next s) (removed s).

(** The constructor, packet.cpp:81-93 *)
Definition construct (s : st) (v c : nat) (port pid cid ilen : N) (bs : list N) (cap : nat) (now : N) : option st :=
  match look (vars s) v, get_phv s c with
  | None, Some (s', x) =>
      Some (with_var s' v (mkVar (mkAt c port 0 pid cid ilen false (sg bs) bs cap 0 None now (repeat None 4) None None false) (Some x)))
  | _, _ => None
  end.
(** The destructor, 95-110 *)
Definition destroy (s : st) (v : nat) : option st :=
  match look (vars s) v with
  | Some (mkVar a (Some x)) =>
      match release (mkSt (drop (vars s) v) (pools s) (next s) (a_pid a :: removed s)) (a_cxt a) x with
      | Some s' => Some s'
      | None => None
      end
  | Some (mkVar a None) => Some (mkSt (drop (vars s) v) (pools s) (next s) (removed s))
  | None => None
  end.
(** clone_with_phv 138-147, clone_with_phv_reset_metadata 154-164, clone_choose_context 172-181 *)
Definition clone (s : st) (v w c : nat) (cid now : N) : option st :=
  match look (vars s) v with
  | Some (mkVar a (Some _)) => construct s w c (a_port a) (a_pid a) cid (a_ilen a) (a_data a) (a_cap a) now
  | _ => None                                     (* copy_headers through a null pointer, or moved-from bytes *)
  end.
(** The members the move constructor copies, 203-211; the others have their initial values *)
Definition moved (a : att) : att :=
  mkAt (a_cxt a) (a_port a) (a_eport a) (a_pid a) (a_cid a) (a_ilen a) (a_exit a) (a_sig a) (a_data a) (a_cap a)
       (a_psize a) None (a_ts a) (a_regs a) None None false.
Definition move (s : st) (v w : nat) : option st :=
  match look (vars s) v, look (vars s) w with
  | Some (mkVar a x), None => Some (with_var (with_var s v (mkVar a None)) w (mkVar (moved a) x))
  | _, _ => None
  end.
(** Move assignment, 220-244: what [b] becomes when [a] is assigned to it *)
Definition assigned (b a : att) : att :=
  mkAt (a_cxt a) (a_port a) (a_eport a) (a_pid a) (a_cid a) (a_ilen a) (a_exit a) (a_sig a) (a_data a) (a_cap a)
       (a_psize a) (a_trunc b) (a_ts a) (a_regs a) (a_eidx b) (a_err b) (a_cks b).
Definition assign (s : st) (w v : nat) : option st :=
  match look (vars s) w, look (vars s) v with
  | Some (mkVar b y), Some (mkVar a x) =>
      if w =? v then Some s else
      let a' := mkAt (a_cxt a) (a_port a) (a_eport a) (a_pid a) (a_cid a) (a_ilen a) (a_exit a) (a_sig a) (a_data b) (a_cap b)
                     (a_psize a) (a_trunc a) (a_ts a) (a_regs a) (a_eidx a) (a_err a) (a_cks a) in
      Some (with_var (with_var s v (mkVar a' y)) w (mkVar (assigned b a) x))
  | _, _ => None
  end.
(** change_context, 112-121 *)
Definition change_context (s : st) (v c : nat) : option st :=
  match look (vars s) v with
  | Some (mkVar a x) =>
      if a_cxt a =? c then Some s else
      match x with
      | Some x =>
          match release s (a_cxt a) x with
          | Some s1 =>
              match get_phv s1 c with
              | Some (s2, y) =>
                  Some (with_var s2 v (mkVar (mkAt c (a_port a) (a_eport a) (a_pid a) (a_cid a) (a_ilen a) (a_exit a) (a_sig a) (a_data a)
                    (a_cap a) (a_psize a) (a_trunc a) (a_ts a) (a_regs a) (a_eidx a) (a_err a) (a_cks a)) (Some y)))
              | None => None
              end
          | None => None
          end
      | None => None                              (* assert(phv) *)
      end
  | None => None
  end.
(** The setters, packet.h:122-275 *)
Definition setter (a : att) (x : set) : option att :=
  match a with mkAt cx po ep pi ci il ex si da ca ps tr ts re ei er ck =>
  match x with
  | SEport n => Some (mkAt cx po n pi ci il ex si da ca ps tr ts re ei er ck)
  | SPort n => Some (mkAt cx n ep pi ci il ex si da ca ps tr ts re ei er ck)
  | SCid n => Some (mkAt cx po ep pi n il ex si da ca ps tr ts re ei er ck)
  | SIlen n => Some (mkAt cx po ep pi ci n ex si da ca ps tr ts re ei er ck)
  | SPsize n => Some (mkAt cx po ep pi ci il ex si da ca n tr ts re ei er ck)
  | STrunc n => Some (mkAt cx po ep pi ci il ex si da ca ps (Some (match tr with Some m => Nat.min n m | None => n end)) ts re ei er ck)
  | SReg i n => if i <? length re then Some (mkAt cx po ep pi ci il ex si da ca ps tr ts (set_nth re i (Some n)) ei er ck) else None
  | SEidx n => Some (mkAt cx po ep pi ci il ex si da ca ps tr ts re n er ck)
  | SErr n => Some (mkAt cx po ep pi ci il ex si da ca ps tr ts re ei n ck)
  | SCks b => Some (mkAt cx po ep pi ci il ex si da ca ps tr ts re ei er b)
  | SExit => Some (mkAt cx po ep pi ci il true si da ca ps tr ts re ei er ck)
  | SResetExit => Some (mkAt cx po ep pi ci il false si da ca ps tr ts re ei er ck)
  | SPrepend bs => if length da + length bs <=? ca then Some (mkAt cx po ep pi ci il ex si (bs ++ da) ca ps tr ts re ei er ck) else None
  | SRemove n => if ps + n <=? length da then Some (mkAt cx po ep pi ci il ex si (skipn n da) ca ps tr ts re ei er ck) else None
  end end.
(** get_data_size, packet.h:160-162 *)
Definition data_size (a : att) : nat := match a_trunc a with Some n => Nat.min (length (a_data a)) n | None => length (a_data a) end.

Definition step (s : st) (o : op) : option (st * obs) :=
  let quiet r := match r with Some s' => Some (s', Nothing) | None => None end in
  match o with
  | ONew v c port pid cid ilen bs cap now => if length bs <=? cap then quiet (construct s v c port pid cid ilen bs cap now) else None
  | ODel v => quiet (destroy s v)
  | OClone v w cid now => match look (vars s) v with Some (mkVar a _) => quiet (clone s v w (a_cxt a) cid now) | None => None end
  | OCloneTo v w c cid now => quiet (clone s v w c cid now)
  | OMove v w => quiet (move s v w)
  | OAssign w v => quiet (assign s w v)
  | OCtx v c => quiet (change_context s v c)
  | OSet v x => match look (vars s) v with
                | Some (mkVar a p) => match setter a x with Some a' => Some (with_var s v (mkVar a' p), Nothing) | None => None end
                | None => None
                end
  | OGet v => match look (vars s) v with Some (mkVar a _) => Some (s, Shows a (data_size a)) | None => None end
  end.
Fixpoint run (s : st) (os : list op) : option (st * list obs) :=
  match os with
  | [] => Some (s, [])
  | o :: r => match step s o with
              | Some (s', x) => match run s' r with Some (s'', xs) => Some (s'', x :: xs) | None => None end
              | None => None
              end
  end.
Definition start (n : nat) : st := mkSt [] (repeat (mkPool [] 0) n) 0 [].
End Packet.
