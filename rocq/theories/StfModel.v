(** Model of the primitives of simple_switch that use an index, a length or a range (targets/simple_switch/primitives.cpp 49-77, 319-338, 347-440,
    458-464): execute_meter, count, register_read, register_write, truncate, modify_field_rng_uniform, modify_field_with_hash_based_offset and
    modify_field, run for packet after packet on the same arrays.

    The destination is an unsigned field; a Data that is read is a field or a constant.  Meters are any state machine fed with the ingress length and
    the clock (the meters themselves are modelled in MeterModel.v).  Arrays and fields are known by their position.  The packets run one after the other:
    concurrent increments are the subject of CounterModel.v, the locks of register arrays that of RegModel.v.  Not modelled: logging.
    An exception, a failed assertion or an access past the end of a vector is [None]. *)
From Coq Require Import List Arith NArith ZArith Bool.
From Verif Require Import Base DataModel PhvModel RegModel.
Import ListNotations.

Section Stf.
Variable M : Type.
(** Meter::execute: ingress length, clock; new state and color *)
Variable exec : M -> N -> N -> M * Z.

(** CounterArray, MeterArray, RegisterArray: counters are (bytes, packets) *)
Record arrays := mk_ars { ar_cnt : list (list (N * N)); ar_met : list (list M); ar_reg : list rarr }.
(** The packet: ingress length, size of the buffer, truncated_length (packet.h 370) and its fields (width, value) *)
Record pkt := mk_pkt { k_len : N; k_data : N; k_trunc : Z; k_fields : list (nat * Z) }.
Definition two64 : Z := (2 ^ 64)%Z.
(** packet.h 370 *)
Definition pkt_new (len data : N) (fs : list (nat * Z)) : pkt := mk_pkt len data (two64 - 1) fs.
(** Packet::get_data_size, packet.h 168-170 *)
Definition pkt_size (k : pkt) : Z := Z.min (Z.of_N (k_data k)) (k_trunc k).
(** Data::set on an unsigned field: fields.h 96-130 keeps the low bits *)
Definition put_field (k : pkt) (d : nat) (v : Z) : option pkt :=
  f <- nth_error (k_fields k) d ;;
  Some (mk_pkt (k_len k) (k_data k) (k_trunc k) (list_set (k_fields k) d (fst f, Z.land v (Z.shiftl 1 (Z.of_nat (fst f)) - 1)))).

(** Operands *)
Inductive src := SC (v : Z) | SF (i : nat).
Definition val (k : pkt) (s : src) : option Z := match s with SC v => Some v | SF i => f <- nth_error (k_fields k) i ;; Some (snd f) end.

(** Calls of primitives, with operands of type [A] *)
Inductive prim (A : Type) :=
| PMeter (a : nat) (i : A) (d : nat) | PCount (a : nat) (i : A) | PRead (d a : nat) (i : A) | PWrite (a : nat) (i v : A)
| PTrunc (v : A) | PRng (d : nat) (lo hi : A) | PHash (d : nat) (base size : A) | PSet (d : nat) (v : A).
(** The parameters as the primitive gets them (ActionEngineState, actions.h): values *)
Definition eval (k : pkt) (p : prim src) : option (prim Z) :=
  match p with
  | PMeter _ a i d => i <- val k i ;; Some (PMeter Z a i d)
  | PCount _ a i => i <- val k i ;; Some (PCount Z a i)
  | PRead _ d a i => i <- val k i ;; Some (PRead Z d a i)
  | PWrite _ a i v => i <- val k i ;; v <- val k v ;; Some (PWrite Z a i v)
  | PTrunc _ v => v <- val k v ;; Some (PTrunc Z v)
  | PRng _ d lo hi => lo <- val k lo ;; hi <- val k hi ;; Some (PRng Z d lo hi)
  | PHash _ d b s => b <- val k b ;; s <- val k s ;; Some (PHash Z d b s)
  | PSet _ d v => v <- val k v ;; Some (PSet Z d v)
  end.

(** Data::get_uint64, get<uint64_t>, get<size_t> (data.h 176-191): a negative value throws, else the low 64 bits *)
Definition get_u64 (v : Z) : option Z := if (v <? 0)%Z then None else Some (v mod two64)%Z.
(** The bounds check of the four primitives, compiled unless NDEBUG is defined ([dbg]): 351-361, 378-387, 400-409, 424-433.  [Some None]: return.
    Without it, an index past the end is undefined behaviour. *)
Definition checked (dbg : bool) (i : Z) (n : nat) : option (option nat) :=
  i <- get_uint i ;;
  if (i <? Z.of_nat n)%Z then Some (Some (Z.to_nat i)) else if dbg then Some None else None.

(** What the environment provides to a call: the clock, an arbitrary number that chooses the value drawn, the output of the calculation *)
Record env := mk_env { e_now : N; e_draw : Z; e_hash : Z }.
(** uniform_int_distribution(lo, hi): any number in the range *)
Definition draw (lo hi x : Z) : Z := (lo + x mod (hi - lo + 1))%Z.

(** The primitives on their values; the last component is the value given to [set] on the destination *)
Definition prim_step (dbg : bool) (e : env) (A : arrays) (k : pkt) (p : prim Z) : option (arrays * pkt * option Z) :=
  match p with
  | PMeter _ a i d =>                                                         (* execute_meter 347-371 *)
      ms <- nth_error (ar_met A) a ;;
      r <- checked dbg i (length ms) ;;
      match r with
      | None => Some (A, k, None)
      | Some j => m <- nth_error ms j ;; let q := exec m (k_len k) (e_now e) in
                  k' <- put_field k d (snd q) ;;
                  Some (mk_ars (ar_cnt A) (list_set (ar_met A) a (list_set ms j (fst q))) (ar_reg A), k', Some (snd q))
      end
  | PCount _ a i =>                                                           (* count 375-393; increment_counter, counters.h 58-61 *)
      cs <- nth_error (ar_cnt A) a ;;
      r <- checked dbg i (length cs) ;;
      match r with
      | None => Some (A, k, None)
      | Some j => c <- nth_error cs j ;;
                  Some (mk_ars (list_set (ar_cnt A) a (list_set cs j ((fst c + k_len k) mod 2 ^ 64, (snd c + 1) mod 2 ^ 64)%N)) (ar_met A) (ar_reg A), k, None)
      end
  | PRead _ d a i =>                                                          (* register_read 397-415 *)
      rs <- nth_error (ar_reg A) a ;;
      r <- checked dbg i (length (ra_v rs)) ;;
      match r with
      | None => Some (A, k, None)
      | Some j => v <- nth_error (ra_v rs) j ;; k' <- put_field k d v ;; Some (A, k', Some v)
      end
  | PWrite _ a i v =>                                                         (* register_write 419-438 *)
      rs <- nth_error (ar_reg A) a ;;
      r <- checked dbg i (length (ra_v rs)) ;;
      match r with
      | None => Some (A, k, None)
      | Some j => Some (mk_ars (ar_cnt A) (ar_met A) (list_set (ar_reg A) a (ra_store rs j v)), k, None)
      end
  | PTrunc _ v =>                                                             (* truncate_ 458-462; Packet::truncate, packet.h 206-208 *)
      n <- get_u64 v ;; Some (A, mk_pkt (k_len k) (k_data k) (Z.min n (k_trunc k)) (k_fields k), None)
  | PRng _ d lo hi =>                                                         (* modify_field_rng_uniform 51-75 *)
      l <- get_u64 lo ;; h <- get_u64 hi ;;
      if (l >? h)%Z then Some (A, k, None)
      else let v := draw l h (e_draw e) in k' <- put_field k d v ;; Some (A, k', Some v)
  | PHash _ d base size =>                                                    (* modify_field_with_hash_based_offset 319-336 *)
      b <- get_u64 base ;; s <- get_u64 size ;;
      let s := if (s =? 0)%Z then 1%Z else s in
      let v := ((e_hash e mod s + b) mod two64)%Z in
      k' <- put_field k d v ;; Some (A, k', Some v)
  | PSet _ d v =>                                                             (* modify_field 43-47 *)
      k' <- put_field k d v ;; Some (A, k', Some v)
  end.

(** What happened: the clock and the ingress length, the values of the operands, the value given to the destination *)
Record event := mk_ev { ev_now : N; ev_len : N; ev_prim : prim Z; ev_res : option Z }.
(** ActionFnEntry::execute (actions.cpp 403-420): the primitives in order *)
Fixpoint run_prims (dbg : bool) (A : arrays) (k : pkt) (l : list (prim src * env)) : option (arrays * pkt * list event) :=
  match l with
  | [] => Some (A, k, [])
  | (p, e) :: l => q <- eval k p ;; r <- prim_step dbg e A k q ;;
                   t <- run_prims dbg (fst (fst r)) (snd (fst r)) l ;;
                   Some (fst t, mk_ev (e_now e) (k_len k) q (snd r) :: snd t)
  end.
(** One packet after the other *)
Fixpoint run_pkts (dbg : bool) (A : arrays) (l : list (pkt * list (prim src * env))) : option (arrays * list (pkt * list event)) :=
  match l with
  | [] => Some (A, [])
  | (k, ps) :: l => r <- run_prims dbg A k ps ;; t <- run_pkts dbg (fst (fst r)) l ;; Some (fst t, (snd (fst r), snd r) :: snd t)
  end.
End Stf.
