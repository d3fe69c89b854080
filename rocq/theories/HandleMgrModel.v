(** Model of include/bm/bm_sim/dynamic_bitset.h and include/bm/bm_sim/handle_mgr.h. *)
From Coq Require Import List Arith NArith Bool.
From Verif Require Import Base.
Import ListNotations.

(** ** find_lowest_bit: dynamic_bitset.h:26-41 *)

(** dynamic_bitset.h:28-31 (kMultiplyDeBruijnBitPosition) *)
Definition debruijn_table : list nat :=
  [0; 1; 28; 2; 29; 14; 24; 3; 30; 22; 20; 15; 25; 17; 4; 8;
   31; 27; 13; 23; 21; 19; 16; 7; 26; 12; 18; 6; 11; 5; 10; 9].

(** dynamic_bitset.h:27-33, uint32_t arithmetic written with explicit wrap-around. *)
Definition find_lowest_bit32 (v : N) : nat :=
  let neg := ((2 ^ 32 - v) mod 2 ^ 32)%N in
  nth (N.to_nat (N.shiftr ((N.land v neg * 125613361) mod 2 ^ 32) 27)) debruijn_table 0.

(** dynamic_bitset.h:36-41 *)
Definition find_lowest_bit64 (v : N) : nat :=
  let sw := N.land v 4294967295 in
  if (sw =? 0)%N then 32 + find_lowest_bit32 (N.shiftr v 32)
  else find_lowest_bit32 sw.

(** ** DynamicBitset: dynamic_bitset.h:43-164 *)

(** dynamic_bitset.h:159; Block = unsigned long, 64 bits on the supported platforms *)
Definition block_width : nat := 64.
(** dynamic_bitset.h:160 *)
Definition ones : N := N.ones 64.
(** [~x] on a Block *)
Definition bnot (x : N) : N := N.lnot x 64.

(** dynamic_bitset.h:161-163.  size_type counters are unbounded [nat]s: simplification, a
    vector cannot reach 2^64 elements. *)
Record bitset := mkBitset { words : list N; num_bits : nat; num_bits_set : nat }.

Definition bs_empty : bitset := mkBitset [] 0 0.

(** dynamic_bitset.h:59-64; the assertion on idx is the [None] outcome *)
Definition bs_test (b : bitset) (idx : nat) : option bool :=
  if idx <? num_bits b then
    let mask := N.shiftl 1 (N.of_nat (idx mod block_width)) in
    Some (negb (N.land (nth (idx / block_width) (words b) 0%N) mask =? 0)%N)
  else None.

(** dynamic_bitset.h:66-75 *)
Definition bs_set (b : bitset) (idx : nat) : option (bitset * bool) :=
  if idx <? num_bits b then
    let wi := idx / block_width in
    let bi := N.of_nat (idx mod block_width) in
    let mask := N.shiftl 1 bi in
    let w := nth wi (words b) 0%N in
    let bit := N.land w mask in
    Some (mkBitset (list_set (words b) wi (N.lor w mask)) (num_bits b)
                   (num_bits_set b + N.to_nat (N.lxor (N.shiftr bit bi) 1)),
          (bit =? 0)%N)
  else None.

(** dynamic_bitset.h:77-86 *)
Definition bs_reset (b : bitset) (idx : nat) : option (bitset * bool) :=
  if idx <? num_bits b then
    let wi := idx / block_width in
    let bi := N.of_nat (idx mod block_width) in
    let mask := N.shiftl 1 bi in
    let w := nth wi (words b) 0%N in
    let bit := N.land w mask in
    Some (mkBitset (list_set (words b) wi (N.land w (bnot mask))) (num_bits b)
                   (num_bits_set b - N.to_nat (N.shiftr bit bi)),
          negb (bit =? 0)%N)
  else None.

(** dynamic_bitset.h:88-93 *)
Definition bs_push_back (b : bitset) (v : bool) : option bitset :=
  let ws := if num_bits b mod block_width =? 0 then words b ++ [0%N] else words b in
  let b' := mkBitset ws (S (num_bits b)) (num_bits_set b) in
  if v then match bs_set b' (num_bits b' - 1) with Some (b'', _) => Some b'' | None => None end
  else Some b'.

(** dynamic_bitset.h:143-149 (find_from_block); [npos] is [None] *)
Fixpoint find_from (ws : list N) (i : nat) : option nat :=
  match ws with
  | [] => None
  | w :: r => if (w =? 0)%N then find_from r (S i)
              else Some (i * block_width + find_lowest_bit64 w)
  end.
Definition find_from_block (b : bitset) (word_idx : nat) : option nat :=
  find_from (skipn word_idx (words b)) word_idx.

(** dynamic_bitset.h:151-157 (find_unset_from_block) *)
Fixpoint find_unset_from (ws : list N) (i : nat) : option nat :=
  match ws with
  | [] => None
  | w :: r => if (w =? ones)%N then find_unset_from r (S i)
              else Some (i * block_width + find_lowest_bit64 (bnot w))
  end.
Definition find_unset_from_block (b : bitset) (word_idx : nat) : option nat :=
  find_unset_from (skipn word_idx (words b)) word_idx.

(** dynamic_bitset.h:101-103 *)
Definition bs_find_first (b : bitset) : option nat := find_from_block b 0.

(** dynamic_bitset.h:105-113; [ones << bit_idx] is truncated to 64 bits *)
Definition bs_find_next (b : bitset) (idx : nat) : option nat :=
  let idx := S idx in
  if num_bits b <=? idx then None else
  let wi := idx / block_width in
  let bi := N.of_nat (idx mod block_width) in
  let sw := N.land (nth wi (words b) 0%N) ((N.shiftl ones bi) mod 2 ^ 64) in
  if (sw =? 0)%N then find_from_block b (S wi)
  else Some (wi * block_width + find_lowest_bit64 sw).

(** dynamic_bitset.h:119-127 *)
Definition bs_find_unset_next (b : bitset) (idx : nat) : option nat :=
  let idx := S idx in
  if num_bits b <=? idx then None else
  let wi := idx / block_width in
  let bi := N.of_nat (idx mod block_width) in
  let sw := N.lor (nth wi (words b) 0%N) (bnot ((N.shiftl ones bi) mod 2 ^ 64)) in
  if (sw =? ones)%N then find_unset_from_block b (S wi)
  else Some (wi * block_width + find_lowest_bit64 (bnot sw)).

(** dynamic_bitset.h:137-140; std::vector::resize value-initialises new words to 0 *)
Definition bs_resize (b : bitset) (n : nat) : bitset :=
  let nw := (n + block_width - 1) / block_width in
  mkBitset (firstn nw (words b) ++ repeat 0%N (nw - length (words b))) n (num_bits_set b).

(** ** HandleMgr: handle_mgr.h:30-223 *)

(** handle_mgr.h:221-222 *)
Record hmgr := mkHmgr { handles : bitset; first_unset : nat }.

Definition hm_empty : hmgr := mkHmgr bs_empty 0.

(** handle_mgr.h:140-154; [None] when the assertion [pos == s] (or an inner one) fails *)
Definition hm_get_handle (m : hmgr) : option (hmgr * nat) :=
  let pos := first_unset m in
  let s := num_bits (handles m) in
  if pos <? s then
    match bs_set (handles m) pos with
    | Some (h', _) =>
        let fu := match bs_find_unset_next h' pos with None => s | Some x => x end in
        Some (mkHmgr h' fu, pos)
    | None => None
    end
  else if pos =? s then
    match bs_push_back (handles m) true with
    | Some h' => Some (mkHmgr h' (S pos), pos)
    | None => None
    end
  else None.

(** handle_mgr.h:156-162; the boolean is "returned 0" *)
Definition hm_release_handle (m : hmgr) (h : nat) : option (hmgr * bool) :=
  if num_bits (handles m) <=? h then Some (m, false) else
  match bs_reset (handles m) h with
  | Some (h', true) =>
      Some (mkHmgr h' (if h <? first_unset m then h else first_unset m), true)
  | Some (h', false) => Some (mkHmgr h' (first_unset m), false)
  | None => None
  end.

(** handle_mgr.h:164-176 *)
Definition hm_set_handle (m : hmgr) (h : nat) : option (hmgr * bool) :=
  let s := num_bits (handles m) in
  let b := if s <=? h then bs_resize (handles m) (h + 1) else handles m in
  match bs_set b h with
  | Some (b', true) =>
      let fu := if first_unset m =? h
                then match bs_find_unset_next b' h with None => s | Some x => x end
                else first_unset m in
      Some (mkHmgr b' fu, true)
  | Some (b', false) => Some (mkHmgr b' (first_unset m), false)
  | None => None
  end.

(** handle_mgr.h:178-180 *)
Definition hm_size (m : hmgr) : nat := num_bits_set (handles m).

(** handle_mgr.h:182-187 *)
Definition hm_valid_handle (m : hmgr) (h : nat) : option bool :=
  if num_bits (handles m) <=? h then Some false else bs_test (handles m) h.

(** handle_mgr.h:189-192 *)
Definition hm_clear (m : hmgr) : hmgr := mkHmgr bs_empty 0.

(** Iteration [for (it = begin(); it != end(); ++it)] (handle_mgr.h:106-114, 204-218): the
    list of handles visited.  [fuel] bounds the number of increments. *)
Fixpoint hm_iter_from (m : hmgr) (fuel : nat) (p : option nat) : option (list nat) :=
  match p with
  | None => Some []
  | Some i =>
      match fuel with
      | O => None
      | S f => match hm_iter_from m f (bs_find_next (handles m) i) with
               | Some l => Some (i :: l) | None => None end
      end
  end.
Definition hm_iterate (m : hmgr) : option (list nat) :=
  hm_iter_from m (S (num_bits (handles m))) (bs_find_first (handles m)).

(** ** Operation histories *)
Inductive hop := HGet | HRelease (h : nat) | HSet (h : nat) | HValid (h : nat)
               | HSize | HIter | HClear.
Inductive hout := OHandle (h : nat) | OOk (b : bool) | ONum (n : nat) | OList (l : list nat) | ONone.

Definition hm_step (m : hmgr) (o : hop) : option (hmgr * hout) :=
  match o with
  | HGet => match hm_get_handle m with Some (m', h) => Some (m', OHandle h) | None => None end
  | HRelease h => match hm_release_handle m h with Some (m', b) => Some (m', OOk b) | None => None end
  | HSet h => match hm_set_handle m h with Some (m', b) => Some (m', OOk b) | None => None end
  | HValid h => match hm_valid_handle m h with Some b => Some (m, OOk b) | None => None end
  | HSize => Some (m, ONum (hm_size m))
  | HIter => match hm_iterate m with Some l => Some (m, OList l) | None => None end
  | HClear => Some (hm_clear m, ONone)
  end.

Fixpoint hm_run (m : hmgr) (ops : list hop) : option (hmgr * list hout) :=
  match ops with
  | [] => Some (m, [])
  | o :: r => match hm_step m o with
              | Some (m', x) => match hm_run m' r with
                                | Some (m'', xs) => Some (m'', x :: xs) | None => None end
              | None => None
              end
  end.
