(** Model of BufBuilder, which assembles the input of a hash or checksum calculation (src/bm_sim/calculations.cpp 29-117).

    Simplifications.  The bit count is a natural number (overflow of int is not modelled); header field values are
    unsigned numbers as in ParserModel.  A failed assertion or an access out of a buffer is [None]. *)
From Coq Require Import List Arith NArith ZArith Bool.
From Verif Require Import Base ExtractModel PhvModel ParserModel.
Import ListNotations.

(** field_t, constant_t, header_t (calculations.h); a constant is its bytes and its width in bits, given
    independently (P4Objects.cpp 1316-1335) *)
Inductive bentry := BField (h f : nat) | BConst (v : list N) (nbits : nat) | BHeader (h : nat).

(** [std::vector::resize(n, 0)] *)
Definition resize (b : list N) (n : nat) : list N := firstn n b ++ repeat 0%N (n - length b).
(** A write through the pointer [buf + pos] *)
Definition write_at (buf : list N) (pos : nat) (f : list N -> option (list N)) : option (list N) :=
  x <- f (skipn pos buf) ;; Some (firstn pos buf ++ x).
(** Header::deparse (headers.cpp 267-277) of the current field values *)
Definition hdr_deparse (x : hdr) (dst : list N) : option (list N) := h_deparse (map (fun f => (fst f, field_bytes f)) (d_fields x)) dst 0.

(** Deparse::operator() 75-103 with Deparse::extend 63-69: [nbits] is the number of bits written so far *)
Definition put (d : desc) (s : phv) (e : bentry) (buf : list N) (nbits : nat) : option (list N * nat) :=
  match e with
  | BField h f =>
      t <- nth_error (ds_h d) h ;;
      x <- nth_error (p_h s) h ;;
      if negb (is_valid t x) then Some (buf, nbits)
      else
        o <- nth_error (d_fields x) f ;;
        let n := nbits + fst o in
        buf' <- write_at (resize buf ((n + 7) / 8)) (nbits / 8) (fun dst => g_deparse (field_bytes o) (fst o) dst (nbits mod 8)) ;;
        Some (buf', n)
  | BConst v w =>
      let n := nbits + w in
      buf' <- write_at (resize buf ((n + 7) / 8)) (nbits / 8) (fun dst => g_deparse v w dst (nbits mod 8)) ;;
      Some (buf', n)
  | BHeader h =>
      if negb (nbits mod 8 =? 0) then None
      else
        t <- nth_error (ds_h d) h ;;
        x <- nth_error (p_h s) h ;;
        if negb (is_valid t x) then Some (buf, nbits)
        else
          let n := nbits + Z.to_nat (d_nb x) * 8 in
          buf' <- write_at (resize buf ((n + 7) / 8)) (nbits / 8) (hdr_deparse x) ;;
          Some (buf', n)
  end.
Fixpoint put_all (d : desc) (s : phv) (es : list bentry) (buf : list N) (nbits : nat) : option (list N) :=
  match es with
  | [] => Some buf
  | e :: r => q <- put d s e buf nbits ;; put_all d s r (fst q) (snd q)
  end.
(** BufBuilder::operator() 104-117; [with_payload] as set by append_payload *)
Definition build (d : desc) (s : phv) (es : list bentry) (with_payload : bool) (payload : list N) : option (list N) :=
  buf <- put_all d s es [] 0 ;;
  Some (if with_payload then buf ++ payload else buf).
