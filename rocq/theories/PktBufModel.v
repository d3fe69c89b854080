(** Model of PacketBuffer (include/bm/bm_sim/packet_buffer.h 40-124).

    The heap is a list of blocks of bytes; a buffer holds the number of its block (the unique_ptr), its
    capacity, the number of bytes in use and the position of [head] in the block.  The bytes of a new
    block are arbitrary ([junk]).  Users write through the pointers returned by [push] and [start]:
    [BWrite] is such a write, which must stay within [start(), end()).  A failed assertion, an access out
    of the block, or the use of a state saved on another buffer is [None]. *)
From Coq Require Import List Arith NArith Bool.
Import ListNotations.

Record pbuf := mkPb { pb_size : nat; pb_data : nat; pb_blk : nat; pb_head : nat }.
Record heap := mkH { blocks : list (list N); bufs : list pbuf }.
Definition h_empty : heap := mkH [] [].

Definition set_nth {A} (l : list A) (i : nat) (x : A) : list A := firstn i l ++ x :: skipn (S i) l.
(** memory write of [w] at [pos] *)
Definition splice (pos : nat) (w l : list N) : list N := firstn pos l ++ w ++ skipn (pos + length w) l.

(** push 81-86 *)
Definition pb_push (b : pbuf) (n : nat) : option pbuf :=
  if pb_data b + n <=? pb_size b
  then if n <=? pb_head b then Some (mkPb (pb_size b) (pb_data b + n) (pb_blk b) (pb_head b - n)) else None
  else None.
(** pop 88-93 *)
Definition pb_pop (b : pbuf) (n : nat) : option pbuf :=
  if n <=? pb_data b then Some (mkPb (pb_size b) (pb_data b - n) (pb_blk b) (pb_head b + n)) else None.
(** state_t 42-45 *)
Record pstate := mkSt { st_blk : nat; st_head : nat; st_data : nat }.

Inductive bop :=
| BNew (junk data : list N)                     (* PacketBuffer(size, data, data_size) 70-77 *)
| BPush (id n : nat) | BPop (id n : nat)
| BWrite (id off : nat) (w : list N)
| BRead (id : nat)                              (* the bytes [start(), start() + get_data_size()) *)
| BSave (id : nat)                              (* save_state 95-97 *)
| BRestore (id : nat) (st : pstate)             (* restore_state 99-102 *)
| BClone (id k : nat) (junk : list N).          (* clone 106-111 *)
Inductive bout := BDone | BBytes (l : list N) | BState (st : pstate) | BId (id : nat).

Definition upd_buf (h : heap) (id : nat) (b : pbuf) : heap := mkH (blocks h) (set_nth (bufs h) id b).
Definition pb_write (h : heap) (b : pbuf) (off : nat) (w : list N) : option heap :=
  match nth_error (blocks h) (pb_blk b) with
  | None => None
  | Some blk => if pb_head b + off + length w <=? length blk
                then Some (mkH (set_nth (blocks h) (pb_blk b) (splice (pb_head b + off) w blk)) (bufs h)) else None
  end.
(** a new buffer of capacity [length junk] holding [data]: 70-77 and 107-109 *)
Definition pb_make (h : heap) (junk data : list N) : option (heap * nat) :=
  let blk := length (blocks h) in
  let b := mkPb (length junk) 0 blk (length junk) in
  match pb_push b (length data) with
  | None => None
  | Some b' =>
      match pb_write (mkH (blocks h ++ [junk]) (bufs h)) b' 0 data with
      | None => None
      | Some h' => Some (mkH (blocks h') (bufs h' ++ [b']), length (bufs h))
      end
  end.
Definition b_step (h : heap) (o : bop) : option (heap * bout) :=
  match o with
  | BNew junk data => match pb_make h junk data with Some (h', id) => Some (h', BId id) | None => None end
  | BPush id n => match nth_error (bufs h) id with
                  | None => None
                  | Some b => match pb_push b n with Some b' => Some (upd_buf h id b', BDone) | None => None end end
  | BPop id n => match nth_error (bufs h) id with
                 | None => None
                 | Some b => match pb_pop b n with Some b' => Some (upd_buf h id b', BDone) | None => None end end
  | BWrite id off w => match nth_error (bufs h) id with
                       | None => None
                       | Some b => if off + length w <=? pb_data b
                                   then match pb_write h b off w with Some h' => Some (h', BDone) | None => None end
                                   else None end
  | BRead id => match nth_error (bufs h) id with
                | None => None
                | Some b => match nth_error (blocks h) (pb_blk b) with
                            | None => None
                            | Some blk => if pb_head b + pb_data b <=? length blk
                                          then Some (h, BBytes (firstn (pb_data b) (skipn (pb_head b) blk))) else None end end
  | BSave id => match nth_error (bufs h) id with
                | None => None | Some b => Some (h, BState (mkSt (pb_blk b) (pb_head b) (pb_data b))) end
  | BRestore id st => match nth_error (bufs h) id with
                      | None => None
                      | Some b => if st_blk st =? pb_blk b
                                  then Some (upd_buf h id (mkPb (pb_size b) (st_data st) (pb_blk b) (st_head st)), BDone) else None end
  | BClone id k junk =>
      match nth_error (bufs h) id with
      | None => None
      | Some b =>
          if (k <=? pb_data b) && (length junk =? pb_size b) then
            match nth_error (blocks h) (pb_blk b) with
            | None => None
            | Some blk => if pb_size b <=? length blk            (* end() - k .. end() *)
                          then match pb_make h junk (firstn k (skipn (pb_size b - k) blk)) with
                               | Some (h', id') => Some (h', BId id') | None => None end
                          else None
            end
          else None
      end
  end.
Fixpoint b_run (h : heap) (ops : list bop) : option (heap * list bout) :=
  match ops with
  | [] => Some (h, [])
  | o :: r => match b_step h o with
              | None => None
              | Some (h', x) => match b_run h' r with None => None | Some (h'', xs) => Some (h'', x :: xs) end
              end
  end.
