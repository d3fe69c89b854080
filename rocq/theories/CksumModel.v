(** Model of the Internet checksum and of checksum update / verification: src/bm_sim/checksums.cpp and cksum16 of
    src/bm_sim/calculations.cpp 301-345.

    Simplifications.  The host is little-endian (x86), as the code's use of ntohs suggests; unaligned loads are loads.
    The hash function of a calculation is an arbitrary function of its buffer; a condition is an arbitrary function of the header
    vector.  Checksum fields are unsigned.  An access out of a buffer or an assertion failure is [None]. *)
From Coq Require Import List Arith NArith ZArith Bool.
From Verif Require Import Base Bytes EntryListSpec ExtractModel PhvModel ParserModel BufModel.
Import ListNotations.

(** A load of consecutive bytes as an unsigned integer *)
Definition le (l : list N) : N := fold_right (fun b a => b + 256 * a)%N 0%N l.
(** [sum += s; if (sum < s) sum++;] on unsigned integers of [w] bits *)
Definition add_c (w : N) (sum s : N) : N := let r := ((sum + s) mod 2 ^ w)%N in if (r <? s)%N then ((r + 1) mod 2 ^ w)%N else r.
(** The main loop, 8 bytes at a time: the sum and the bytes left *)
Fixpoint main_loop (buf : list N) (sum : N) : N * list N :=
  match buf with
  | b0 :: b1 :: b2 :: b3 :: b4 :: b5 :: b6 :: b7 :: r => main_loop r (add_c 64 sum (le [b0; b1; b2; b3; b4; b5; b6; b7]))
  | _ => (sum, buf)
  end.
(** [if (len & 2^k) { s = load 2^k bytes; sum += s; if (sum < s) sum++; tail += 2^k; }] *)
Definition tail_step (len k : nat) (st : N * list N) : option (N * list N) :=
  if Nat.testbit len k then
    if 2 ^ k <=? length (snd st) then Some (add_c 64 (fst st) (le (firstn (2 ^ k) (snd st))), skipn (2 ^ k) (snd st)) else None
  else Some st.
(** The folding of the 64-bit sum to 16 bits *)
Definition fold_down (sum : N) : N :=
  let t1 := (sum mod 2 ^ 32)%N in
  let t2 := ((sum / 2 ^ 32) mod 2 ^ 32)%N in
  let t1 := add_c 32 t1 t2 in
  let t3 := (t1 mod 2 ^ 16)%N in
  let t4 := ((t1 / 2 ^ 16) mod 2 ^ 16)%N in
  add_c 16 t3 t4.
(** checksums.cpp 33-72: [~t3], whose two bytes in memory, low byte first, are the checksum in network order *)
Definition cksum16 (buf : list N) : option N :=
  let st := main_loop buf 0%N in
  let len := length (snd st) in
  st2 <- tail_step len 2 st ;;
  st1 <- tail_step len 1 st2 ;;
  st0 <- tail_step len 0 st1 ;;
  Some (2 ^ 16 - 1 - fold_down (fst st0))%N.
Definition swap16 (x : N) : N := (256 * (x mod 256) + x / 256)%N.
(** calculations.cpp 301-345, csum16: [ntohs(~t3)] *)
Definition calc_cksum16 (buf : list N) : option N := c <- cksum16 buf ;; Some (swap16 c).
(** The two bytes of a uint16_t in memory *)
Definition mem16 (x : N) : list N := [(x mod 256)%N; (x / 256)%N].

(** ** Checksum objects.  CalcBased: the inputs of the calculation, whether the payload is included, the hash. *)
Inductive ckind := CalcBased (es : list bentry) (wp : bool) (hash : list N -> option N) | IPv4.
Record checksum := mk_ck { ck_h : nat; ck_f : nat; ck_cond : phv -> bool; ck_kind : ckind }.
Definition field_of (s : phv) (h f : nat) : option (nat * Z) := x <- nth_error (p_h s) h ;; nth_error (d_fields x) f.
Definition hdr_valid (d : desc) (s : phv) (h : nat) : option bool := t <- nth_error (ds_h d) h ;; x <- nth_error (p_h s) h ;; Some (is_valid t x).
(** The buffer of IPv4Checksum: [char buffer[60]] uninitialised ([stack]), the header deparsed into it, bytes 10 and 11
    cleared; cksum16 of the header's length *)
Definition ip_cksum (stack : list N) (x : hdr) : option N :=
  b <- hdr_deparse x stack ;;
  if length b <=? 11 then None
  else
    let b := list_set (list_set b 10 0%N) 11 0%N in
    if Z.to_nat (d_nb x) <=? length b then cksum16 (firstn (Z.to_nat (d_nb x)) b) else None.
(** NamedCalculation::output (calculations.h 263-267) *)
Definition output (d : desc) (s : phv) (es : list bentry) (wp : bool) (payload : list N) (hash : list N -> option N) : option N :=
  buf <- build d s es wp payload ;; hash buf.
(** CalcBasedChecksum::update_ 141-146, IPv4Checksum::update_ 163-175 with Field::set_bytes (fields.h 55-59; the field must have two
    bytes) *)
Definition update_ (d : desc) (ck : checksum) (stack payload : list N) (s : phv) : option phv :=
  match ck_kind ck with
  | CalcBased es wp hash => c <- output d s es wp payload hash ;; store s (ck_h ck) (ck_f ck) (Z.of_N c)
  | IPv4 =>
      v <- hdr_valid d s (ck_h ck) ;;
      if negb v then Some s
      else
        x <- nth_error (p_h s) (ck_h ck) ;;
        c <- ip_cksum stack x ;;
        o <- nth_error (d_fields x) (ck_f ck) ;;
        if (fst o + 7) / 8 =? 2 then set_field s (ck_h ck) (ck_f ck) (Z.of_N (be_val (mem16 c))) else None
  end.
(** Checksum::update 83-95 *)
Definition ck_update (d : desc) (ck : checksum) (stack payload : list N) (s : phv) : option phv :=
  if ck_cond ck s then update_ d ck stack payload s else Some s.
(** CalcBasedChecksum::verify_ 148-156, IPv4Checksum::verify_ 177-190 *)
Definition verify_ (d : desc) (ck : checksum) (stack payload : list N) (s : phv) : option bool :=
  match ck_kind ck with
  | CalcBased es wp hash =>
      c <- output d s es wp payload hash ;;
      o <- field_of s (ck_h ck) (ck_f ck) ;;
      Some (Z.of_N c =? snd o mod 2 ^ Z.of_nat (fst o))%Z
  | IPv4 =>
      v <- hdr_valid d s (ck_h ck) ;;
      if negb v then Some true
      else
        x <- nth_error (p_h s) (ck_h ck) ;;
        c <- ip_cksum stack x ;;
        o <- nth_error (d_fields x) (ck_f ck) ;;
        let b := field_bytes o in
        if length b <? 2 then None else Some (bytes_eqb (mem16 c) (firstn 2 b))
  end.
(** Checksum::verify 97-118 *)
Definition ck_verify (d : desc) (ck : checksum) (stack payload : list N) (s : phv) : option bool :=
  v <- hdr_valid d s (ck_h ck) ;;
  if negb v then Some true else if ck_cond ck s then verify_ d ck stack payload s else Some true.
