(** Model of the remaining hash functions: src/bm_sim/calculations.cpp 352-504 (emitAsInteger, xor16, xor32, toeplitz, identity,
    round_robin, round_robin_consistent), ToeplitzMgr::update_key 577-594, and the hash primitive of
    targets/simple_switch/primitives.cpp 318-336.

    Simplifications.  char and size_t conversions are as on a two's complement 64-bit machine.  Reading four bytes through a uint32_t
    pointer followed by ntohl is the big-endian value of the bytes, as on a little-endian machine that allows unaligned reads.
    Each call holds the object's mutex while it uses mutable state and is one step.  xxh64 is not modelled. *)
From Coq Require Import List Arith NArith Bool.
From Verif Require Import Base PhvModel EntryListSpec CrcModel.
Import ListNotations.
Local Open Scope N_scope.

(** emitAsInteger 357-369; the type has [size] bytes *)
Fixpoint emit_loop (size : nat) (buf : list N) (res : N) : N :=
  match buf with [] => res | b :: r => emit_loop size r (N.lor (trunc (8 * size) (N.shiftl res 8)) (N.land b 255)) end.
Definition emit_as_integer (size : nat) (buf : list N) : N :=
  match buf with [] => 0 | _ => trunc (8 * size) (N.shiftl (emit_loop size buf 0) (N.of_nat ((size - length buf) * 8))) end.
(** xor_hash 371-389: [fuel] bounds the while loop *)
Fixpoint xor_loop (fuel n : nat) (buf : list N) (acc : N) : option N :=
  if (n <=? length buf)%nat
  then match fuel with O => None | S k => xor_loop k n (skipn n buf) (N.lxor acc (emit_as_integer n (firstn n buf))) end
  else Some (N.lxor acc (emit_as_integer n buf)).
Definition xor_hash (n : nat) (buf : list N) : option N := xor_loop (length buf) n buf 0.

(** toeplitz: the words of the input 398-412 and of the key 443-450 *)
Fixpoint words (buf : list N) : list N :=
  match buf with
  | [] => []
  | b0 :: b1 :: b2 :: b3 :: rest => be_val [b0; b1; b2; b3] :: words rest
  | tail => [emit_as_integer 4 tail]
  end.
(** __builtin_ctz of a non-zero word *)
Fixpoint ctz (p : positive) : nat := match p with xO q => S (ctz q) | _ => O end.
(** The loop over the set bits 423-430 *)
Fixpoint bit_loop (fuel : nat) (key_l key_r word acc : N) : option N :=
  match word with
  | 0 => Some acc
  | N.pos p =>
      match fuel with
      | O => None
      | S k =>
          let i_bit := (31 - ctz p)%nat in
          let l := trunc 32 (N.shiftl key_l (N.of_nat i_bit)) in
          let r := trunc 32 (N.shiftr key_r (N.of_nat (32 - i_bit))) in
          bit_loop k key_l key_r (N.land word (word - 1)) (N.lxor acc (N.lor l r))
      end
  end.
(** The loop over the input words 419-431: [i] is i_word *)
Fixpoint word_loop (key : list N) (i : nat) (input : list N) (acc : N) : option N :=
  match input with
  | [] => Some acc
  | x :: rest =>
      kl <- nth_error key (i mod length key) ;;
      kr <- nth_error key ((i + 1) mod length key) ;;
      acc' <- bit_loop 33 kl kr x acc ;;
      word_loop key (S i) rest acc'
  end.
Definition toeplitz (key : list N) (buf : list N) : option N := word_loop key 0 (words buf) 0.
(** update_key 436-453, the constructor 394-396 and ToeplitzMgr::update_key; [None] is a calculation of another type *)
Inductive top := SetKey (key : list N) | THash (buf : list N).
Inductive tout := TSuccess | TInvalidKey | TWrongType | TValue (v : N).
Definition t_new : option (list N) := Some (words [0; 0; 0; 0]).
Definition t_step (s : option (list N)) (o : top) : option (option (list N) * tout) :=
  match o, s with
  | SetKey k, Some _ => if (length k <? 4)%nat || negb (length k mod 4 =? 0)%nat then Some (s, TInvalidKey) else Some (Some (words k), TSuccess)
  | SetKey k, None => Some (s, TWrongType)
  | THash buf, Some key => v <- toeplitz key buf ;; Some (s, TValue v)
  | THash buf, None => None
  end.
Fixpoint t_run (s : option (list N)) (l : list top) : option (option (list N) * list tout) :=
  match l with [] => Some (s, []) | o :: r => q <- t_step s o ;; q' <- t_run (fst q) r ;; Some (fst q', snd q :: snd q') end.

(** identity 459-468 *)
Fixpoint identity_loop (first : bool) (buf : list N) (res : N) : N :=
  match buf with [] => res | b :: r => identity_loop false r (trunc 64 ((if first then res else trunc 64 (N.shiftl res 8)) + b)) end.
Definition identity (buf : list N) : N := identity_loop true (firstn (Nat.min 8 (length buf)) buf) 0.
(** round_robin 478-489: the state is idx *)
Definition rr_step (idx : N) (buf : list N) : N * N := (trunc 64 (idx + 1), idx).
Fixpoint rr_run (idx : N) (l : list (list N)) : list N := match l with [] => [] | b :: r => let q := rr_step idx b in snd q :: rr_run (fst q) r end.
(** round_robin_consistent 493-504: idx and the map; emplace does nothing for a key that is present *)
Fixpoint leqb (a b : list N) : bool := match a, b with [], [] => true | x :: a, y :: b => (x =? y) && leqb a b | _, _ => false end.
Fixpoint assoc (k : list N) (m : list (list N * N)) : option N := match m with [] => None | (k', v) :: r => if leqb k k' then Some v else assoc k r end.
Definition rrc_step (s : N * list (list N * N)) (buf : list N) : (N * list (list N * N)) * N :=
  match assoc buf (snd s) with
  | Some v => (s, v)
  | None => ((trunc 64 (fst s + 1), (buf, fst s) :: snd s), fst s)
  end.
Fixpoint rrc_run (s : N * list (list N * N)) (l : list (list N)) : list N := match l with [] => [] | b :: r => let q := rrc_step s b in snd q :: rrc_run (fst q) r end.

(** modify_field_with_hash_based_offset (primitives.cpp 321-335): the value given to the destination; operands are their 64 low bits *)
Definition hash_offset (hash base size : N) : N := trunc 64 (hash mod (if size =? 0 then 1 else size) + base).
