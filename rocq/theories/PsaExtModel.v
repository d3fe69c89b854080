(** Model of the InternetChecksum and Hash externs of psa_switch and pna_nic (targets/psa_switch/externs/psa_internet_checksum.cpp,
    psa_hash.cpp; the files of pna_nic are the same up to names).

    Simplifications.  A field is its width in bits and its value (negative values only for signed fields); destination
    fields receive the number that is written, their own truncation is that of Field (C26).  The while loops run on fuel:
    [Hangs] is what a loop that has used all its fuel gives.  A failed assertion or undefined behaviour is [Aborts]. *)
From Coq Require Import List Arith NArith ZArith Bool.
From Verif Require Import Base ExtractModel PhvModel ParserModel BufModel.
Import ListNotations.

Inductive res (A : Type) := Done (a : A) | Aborts | Hangs.
Arguments Done {A} _. Arguments Aborts {A}. Arguments Hangs {A}.
Definition bindr {A B} (r : res A) (f : A -> res B) : res B := match r with Done a => f a | Aborts => Aborts | Hangs => Hangs end.

(** concatenate_fields 18-30, from the last field to the first; [n_bits] is a uint16_t *)
Definition conc_step (acc : Z * Z) (f : nat * Z) : Z * Z :=
  let (input, n_bits) := acc in
  (input + Z.shiftl (snd f) n_bits, (n_bits + Z.of_nat (fst f)) mod 65536)%Z.
Definition concatenate_fields (fs : list (nat * Z)) : res Z :=
  let (input, n_bits) := fold_left conc_step (rev fs) (0, 0)%Z in
  if (n_bits mod 16 =? 0)%Z then Done input else Aborts.

Local Open Scope N_scope.
(** ones_complement_sum 33-39 *)
Definition ones_complement_sum (x y : N) : N :=
  let ret := x + y in
  let ret := if 65536 <=? ret then ret + 1 else ret in
  ret mod 65536.

(** The loops of add 85-90 and subtract 101-106; [neg] is the [~] of subtract, on uint16_t *)
Fixpoint sum_loop (fuel : nat) (neg : bool) (sum : N) (input : Z) : res N :=
  if (input =? 0)%Z then Done sum
  else match fuel with
       | O => Hangs
       | S k =>
           let d := Z.to_N (Z.land input 65535) in
           sum_loop k neg (ones_complement_sum sum (if neg then 65535 - d else d)) (Z.shiftr input 16)
       end.

(** The methods of the extern *)
Inductive ckop := CAdd (fs : list (nat * Z)) | CSub (fs : list (nat * Z)) | CGet | CState | CVerify (v : Z) | CSet (v : Z) | CClear.
(** Data::get<uint16_t> of a value that is not negative *)
Definition get16 (v : Z) : res N := if (v <? 0)%Z then Aborts else Done (Z.to_N (v mod 65536)).
(** One method: the new value of [sum] and what is written to the destination *)
Definition ck_step (fuel : nat) (sum : N) (o : ckop) : res (N * option N) :=
  match o with
  | CAdd fs => bindr (concatenate_fields fs) (fun i => bindr (sum_loop fuel false sum i) (fun s => Done (s, None)))   (* add 78-91 *)
  | CSub fs => bindr (concatenate_fields fs) (fun i => bindr (sum_loop fuel true sum i) (fun s => Done (s, None)))    (* subtract 94-107 *)
  | CGet => Done (sum, Some (65535 - sum))                                                                            (* get 52-55 *)
  | CState => Done (sum, Some sum)                                                                                    (* get_state 57-60 *)
  | CVerify v => bindr (get16 v) (fun x => Done (sum, Some (if x =? 65535 - sum then 1 else 0)))                      (* get_verify 62-65 *)
  | CSet v => bindr (get16 v) (fun x => Done (x, None))                                                               (* set_state 67-70 *)
  | CClear => Done (0, None)                                                                                          (* clear 72-75; init 47-50 *)
  end.
Fixpoint ck_run (fuel : nat) (sum : N) (ops : list ckop) : res (N * list (option N)) :=
  match ops with
  | [] => Done (sum, [])
  | o :: r => bindr (ck_step fuel sum o) (fun a => bindr (ck_run fuel (fst a) r) (fun b => Done (fst b, snd a :: snd b)))
  end.

(** ** Hash *)
Local Close Scope N_scope.
(** build_buffer 15-30: the loop that writes the fields, [nbits] bits after the start of the buffer *)
Fixpoint write_fields (fs : list (nat * Z)) (buf : list N) (nbits : nat) : option (list N) :=
  match fs with
  | [] => Some buf
  | f :: r =>
      buf' <- write_at buf (nbits / 8) (fun dst => g_deparse (field_bytes f) (fst f) dst (nbits mod 8)) ;;
      write_fields r buf' (nbits + fst f)
  end.
Definition build_buffer (fs : list (nat * Z)) : option (list N) :=
  let nbits := fold_left (fun n f => n + fst f) fs 0 in
  let nbytes := (nbits + 7) / 8 in
  write_fields fs (repeat 0%N nbytes) (nbytes * 8 - nbits).
(** get_hash 44-48: [calc] is the calculation of the extern instance (any function of the buffer to uint64_t) *)
Definition get_hash (calc : list N -> N) (fs : list (nat * Z)) : option N :=
  buf <- build_buffer fs ;;
  Some (calc buf).
(** get_hash_mod 51-56, on uint64_t; [base] and [max] as read by get<uint64_t>; a remainder by zero is undefined behaviour *)
Definition get_hash_mod (calc : list N -> N) (base : N) (fs : list (nat * Z)) (max : N) : option N :=
  buf <- build_buffer fs ;;
  if (max mod 2 ^ 64 =? 0)%N then None
  else Some ((base mod 2 ^ 64 + calc buf mod (max mod 2 ^ 64)) mod 2 ^ 64)%N.
