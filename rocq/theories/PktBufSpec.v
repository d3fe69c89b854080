(** Specification of packet buffers: each packet is a pair of byte sequences, the headroom (nearest byte
    first) and the packet proper; packets are independent values. *)
From Coq Require Import List Arith NArith Bool.
From Verif Require Import PktBufModel.
Import ListNotations.

Record pkt := mkPkt { room : list N; body : list N }.
(** Move [n] bytes of headroom into the packet, or back. *)
Definition grow (n : nat) (p : pkt) : pkt := mkPkt (skipn n (room p)) (rev (firstn n (room p)) ++ body p).
Definition shrink (n : nat) (p : pkt) : pkt := mkPkt (rev (firstn n (body p)) ++ room p) (skipn n (body p)).
Definition resize (n : nat) (p : pkt) : pkt :=
  if length (body p) <=? n then grow (n - length (body p)) p else shrink (length (body p) - n) p.

(** Packets and, for each saved state, the packet it belongs to and the packet length it stands for. *)
Definition pkts := list pkt.
Definition put_pkt (s : pkts) (id : nat) (p : pkt) : pkts := firstn id s ++ p :: skipn (S id) s.

(** [state_len]: what a saved state means (the length of the packet when saved). *)
Inductive bspec (s : pkts) : bop -> bout -> pkts -> Prop :=
| bs_new : forall junk data, length data <= length junk ->
    bspec s (BNew junk data) (BId (length s))
      (s ++ [mkPkt (rev (firstn (length junk - length data) junk)) data])
| bs_push : forall id n p, nth_error s id = Some p -> n <= length (room p) ->
    bspec s (BPush id n) BDone (put_pkt s id (grow n p))
| bs_pop : forall id n p, nth_error s id = Some p -> n <= length (body p) ->
    bspec s (BPop id n) BDone (put_pkt s id (shrink n p))
| bs_write : forall id off w p, nth_error s id = Some p -> off + length w <= length (body p) ->
    bspec s (BWrite id off w) BDone
      (put_pkt s id (mkPkt (room p) (firstn off (body p) ++ w ++ skipn (off + length w) (body p))))
| bs_read : forall id p, nth_error s id = Some p -> bspec s (BRead id) (BBytes (body p)) s
| bs_save : forall id p st, nth_error s id = Some p -> st_data st = length (body p) -> st_head st = length (room p) -> st_blk st = id ->
    bspec s (BSave id) (BState st) s
| bs_restore : forall id st p, nth_error s id = Some p -> st_blk st = id -> st_head st + st_data st = length (room p) + length (body p) ->
    bspec s (BRestore id st) BDone (put_pkt s id (resize (st_data st) p))
| bs_clone : forall id k junk p, nth_error s id = Some p -> k <= length (body p) -> length junk = length (room p) + length (body p) ->
    bspec s (BClone id k junk) (BId (length s))
      (s ++ [mkPkt (rev (firstn (length junk - k) junk)) (skipn (length (body p) - k) (body p))]).
Inductive bspec_run : pkts -> list bop -> list bout -> pkts -> Prop :=
| bsr_nil : forall s, bspec_run s [] [] s
| bsr_cons : forall s o x s' os xs s'', bspec s o x s' -> bspec_run s' os xs s'' -> bspec_run s (o :: os) (x :: xs) s''.

(** A call that respects the contract of the class in the current state. *)
Definition legal (s : pkts) (o : bop) : Prop := exists x s', bspec s o x s'.
Inductive legal_run : pkts -> list bop -> Prop :=
| lr_nil : forall s, legal_run s []
| lr_cons : forall s o os, legal s o -> (forall x s', bspec s o x s' -> legal_run s' os) -> legal_run s (o :: os).
